(** Proofs for C54. *)
From Coq Require Import String List Bool Arith NArith Lia.
Import ListNotations.
From Verif Require Import Base StreamM WrapM WrapSpec.
Unset Implicit Arguments.

Lemma sum_map_id {A B} (x : A + B) : sum_map (fun y => y) x = x.
Proof. destruct x; reflexivity. Qed.
Lemma pr_map_err_id {A E} (x : PR A E) : pr_map_err (fun y => y) x = x.
Proof. destruct x as [| | |[e o]]; reflexivity. Qed.

Section Run.
Context {S T R P K SE PE A : Type}.
Variable I : strm S T R P K SE PE.

Lemma run_conv {P2 SE2 PE2} (fp : P -> P2) (fs : SE -> SE2) (fe : PE -> PE2) (c : client T R P2 SE2 PE2 A) : forall s ks,
  run_client (conv_strm I fp fs fe) c s ks = run_client I (translate (fun b => b) fp fs fe c) s ks.
Proof.
  induction c as [a|k IH|k IH|k IH|k IH|n k IH|n k IH|X f x k IH|X f x k IH|n k IH|k IH]; intros s ks; cbn [run_client translate conv_strm w_uncons w_partial w_position w_checkpoint w_reset w_range w_while w_while1 w_distance w_whole].
  - reflexivity.
  - destruct (w_uncons I s) as [[r s']| |]; cbn; auto.
  - apply IH.
  - apply IH.
  - apply IH.
  - destruct (nth_error ks n); auto. destruct (w_reset I s k0) as [r s']; cbn; auto.
  - destruct (w_range I n s) as [[r s']| |]; cbn; auto.
  - destruct (w_while I f s x) as [[[r s'] x']| |]; cbn; auto.
  - destruct (w_while1 I f s x) as [[[r s'] x']| |]; cbn; auto.
  - destruct (nth_error ks n); auto. destruct (w_distance I s k0); cbn; auto.
  - apply IH.
Qed.

Lemma run_partial b (c : client T R P SE PE A) : forall s ks,
  run_client (set_partial I b) c s ks = run_client I (translate (fun _ => b) (fun p => p) (fun e => e) (fun e => e) c) s ks.
Proof.
  induction c as [a|k IH|k IH|k IH|k IH|n k IH|n k IH|X f x k IH|X f x k IH|n k IH|k IH]; intros s ks; cbn [run_client translate set_partial w_uncons w_partial w_position w_checkpoint w_reset w_range w_while w_while1 w_distance w_whole].
  - reflexivity.
  - destruct (w_uncons I s) as [[r s']| |]; cbn; auto. rewrite sum_map_id. auto.
  - apply IH.
  - apply IH.
  - apply IH.
  - destruct (nth_error ks n); auto. destruct (w_reset I s k0) as [r s']; cbn. rewrite sum_map_id. auto.
  - destruct (w_range I n s) as [[r s']| |]; cbn; auto. rewrite sum_map_id. auto.
  - destruct (w_while I f s x) as [[[r s'] x']| |]; cbn; auto. rewrite sum_map_id. auto.
  - destruct (w_while1 I f s x) as [[[r s'] x']| |]; cbn; auto. rewrite pr_map_err_id. auto.
  - destruct (nth_error ks n); auto. destruct (w_distance I s k0); cbn; auto.
  - apply IH.
Qed.

Lemma run_state {U} (u : U) (c : client T R P SE PE A) : forall s ks,
  run_client (state_strm I U) c (s, u) ks = omap (fun y => match y with (a, s', ks') => (a, (s', u), ks') end) (run_client I c s ks).
Proof.
  induction c as [a|k IH|k IH|k IH|k IH|n k IH|n k IH|X f x k IH|X f x k IH|n k IH|k IH]; intros s ks; cbn [run_client state_strm w_uncons w_partial w_position w_checkpoint w_reset w_range w_while w_while1 w_distance w_whole fst snd].
  - reflexivity.
  - destruct (w_uncons I s) as [[r s']| |]; cbn; auto.
  - apply IH.
  - apply IH.
  - apply IH.
  - destruct (nth_error ks n); auto. destruct (w_reset I s k0) as [r s']; cbn. auto.
  - destruct (w_range I n s) as [[r s']| |]; cbn; auto.
  - destruct (w_while I f s x) as [[[r s'] x']| |]; cbn; auto.
  - destruct (w_while1 I f s x) as [[[r s'] x']| |]; cbn; auto.
  - destruct (nth_error ks n); auto. destruct (w_distance I s k0); cbn; auto.
  - apply IH.
Qed.

Lemma run_maybe (b : bool) (c : client T R P SE PE A) : forall s ks,
  run_client (maybe_strm I) c (s, b) ks = omap (fun y => match y with (a, s', ks') => (a, (s', b), ks') end) (run_client (set_partial I b) c s ks).
Proof.
  induction c as [a|k IH|k IH|k IH|k IH|n k IH|n k IH|X f x k IH|X f x k IH|n k IH|k IH]; intros s ks; cbn [run_client maybe_strm set_partial w_uncons w_partial w_position w_checkpoint w_reset w_range w_while w_while1 w_distance w_whole fst snd].
  - reflexivity.
  - destruct (w_uncons I s) as [[r s']| |]; cbn; auto.
  - apply IH.
  - apply IH.
  - apply IH.
  - destruct (nth_error ks n); auto. destruct (w_reset I s k0) as [r s']; cbn. auto.
  - destruct (w_range I n s) as [[r s']| |]; cbn; auto.
  - destruct (w_while I f s x) as [[[r s'] x']| |]; cbn; auto.
  - destruct (w_while1 I f s x) as [[[r s'] x']| |]; cbn; auto.
  - destruct (nth_error ks n); auto. destruct (w_distance I s k0); cbn; auto.
  - apply IH.
Qed.

Lemma ps_closure_fst {Q X} (posr : positioner Q T R) (f : fnmut X T) (y : X * Q) t :
  (fst (ps_closure posr f y t), fst (snd (ps_closure posr f y t))) = f (fst y) t.
Proof. unfold ps_closure. destruct (f (fst y) t) as [[|] x']; reflexivity. Qed.

End Run.

(** A client that does not ask for the position, as a client of a stream with other positions. *)
Section Pos.
Context {S T R P Q K SE PE A : Type}.
Variable I : strm S T R P K SE PE.
Variable posr : positioner Q T R.
Hypothesis HN : natural I.

Lemma run_pos_free (fp : P -> Q) (c : client T R Q SE PE A) : position_free c -> forall s q kqs,
  omap (fun y => match y with (a, (s', _), kqs') => (a, s', List.map fst kqs') end) (run_client (pos_strm I posr) c (s, q) kqs) =
  run_client I (translate (fun b => b) fp (fun e => e) (fun e => e) c) s (List.map fst kqs).
Proof.
  intros HF. induction HF as [a|k _ IH|k _ IH|k _ IH|n k _ IH|n k _ IH|X f x k _ IH|X f x k _ IH|n k _ IH|k _ IH]; intros s q kqs;
    cbn [run_client translate pos_strm w_uncons w_partial w_position w_checkpoint w_reset w_range w_while w_while1 w_distance w_whole fst snd].
  - reflexivity.
  - destruct (w_uncons I s) as [[[t|e] s']| |]; cbn; auto; apply IH.
  - apply IH.
  - apply (IH s q ((w_checkpoint I s, q) :: kqs)).
  - rewrite nth_error_map. destruct (nth_error kqs n) as [[k0 q0]|]; cbn; auto. destruct (w_reset I s k0) as [[[]|e] s']; cbn; apply IH.
  - destruct (w_range I n s) as [[[t|e] s']| |]; cbn; auto; apply IH.
  - destruct (HN X (X * Q)%type fst f (ps_closure posr f) (fun y t => ps_closure_fst posr f y t) s (x, q)) as [H1 _].
    cbn [fst] in H1. rewrite <- H1. destruct (w_while I (ps_closure posr f) s (x, q)) as [[[r s'] [x' q']]| |]; cbn; auto. rewrite sum_map_id. apply IH.
  - destruct (HN X (X * Q)%type fst f (ps_closure posr f) (fun y t => ps_closure_fst posr f y t) s (x, q)) as [_ H1].
    cbn [fst] in H1. rewrite <- H1. destruct (w_while1 I (ps_closure posr f) s (x, q)) as [[[r s'] [x' q']]| |]; cbn; auto. rewrite pr_map_err_id. apply IH.
  - rewrite nth_error_map. destruct (nth_error kqs n) as [[k0 q0]|]; cbn; auto. destruct (w_distance I s k0); cbn; auto. 
  - apply IH.
Qed.
End Pos.

(** * Naturality *)
Section Nat.
Context {X Y T : Type}.
Variable g : Y -> X.
Variable f : fnmut X T.
Variable f' : fnmut Y T.
Hypothesis H : forall y t, (fst (f' y t), g (snd (f' y t))) = f (g y) t.

Definition push {A B} (z : A * B * Y) : A * B * X := match z with (a, b, y) => (a, b, g y) end.

Lemma fn_cases y t : exists b y', f' y t = (b, y') /\ f (g y) t = (b, g y').
Proof. destruct (f' y t) as [b y'] eqn:E. exists b, y'. split; auto. rewrite <- H, E. reflexivity. Qed.

Lemma check_nat l i y : omap push (check f' l i y) = check f l i (g y).
Proof. unfold check. destruct (nth_error l i); auto. destruct (fn_cases y t) as [b [y' [-> ->]]]. destruct b; reflexivity. Qed.
Lemma checks_nat n l : forall i y, omap push (checks f' n l i y) = checks f n l i (g y).
Proof.
  induction n as [|n IH]; intros i y; [reflexivity|]. cbn [checks]. rewrite <- check_nat.
  destruct (check f' l i y) as [[[[|] j] y']| |]; cbn; auto.
Qed.
Lemma while8_nat n l : forall i y, omap push (while8 f' n l i y) = while8 f n l i (g y).
Proof.
  induction n as [|n IH]; intros i y; [reflexivity|]. cbn [while8]. destruct (length l <? i); auto. destruct (8 <=? length l - i); auto. rewrite <- checks_nat.
  destruct (checks f' 8 l i y) as [[[[|] j] y']| |]; cbn [omap push obind]; auto.
Qed.
Lemma tail_nat n l : forall i y, omap (fun z => (fst z, g (snd z))) (tail_loop f' n l i y) = tail_loop f n l i (g y).
Proof.
  induction n as [|n IH]; intros i y; [reflexivity|]. cbn [tail_loop]. destruct (nth_error l i) as [t|]; auto.
  destruct (fn_cases y t) as [b [y' [-> ->]]]. destruct b; auto.
Qed.
Lemma suw_nat d n l y : omap push (slice_uncons_while d f' n l y) = slice_uncons_while d f n l (g y).
Proof.
  unfold slice_uncons_while. destruct (d && (length l <? n)); auto. rewrite <- while8_nat.
  destruct (while8 f' (Datatypes.S (length l)) l n y) as [[[[|] j] y']| |]; cbn [omap push obind]; auto.
  - destruct (split_at l j) as [[]| |]; reflexivity.
  - rewrite <- tail_nat. destruct (tail_loop f' (Datatypes.S (length l)) l j y') as [[k z]| |]; cbn [omap push obind fst snd]; auto. destruct (split_at l k) as [[]| |]; reflexivity.
Qed.
Lemma sl_while_nat d l y : omap push (sl_uncons_while d f' l y) = sl_uncons_while d f l (g y).
Proof. unfold sl_uncons_while. rewrite <- suw_nat. destruct (slice_uncons_while d f' 0 l y) as [[[]]| |]; reflexivity. Qed.
Lemma sl_while1_nat d l y : omap push (sl_uncons_while1 d f' l y) = sl_uncons_while1 d f l (g y).
Proof.
  unfold sl_uncons_while1. destruct l as [|t l]; auto. destruct (fn_cases y t) as [b [y' [-> ->]]]. destruct b; auto.
  rewrite <- suw_nat. destruct (slice_uncons_while d f' 1 (t :: l) y') as [[[]]| |]; reflexivity.
Qed.
End Nat.

Section NatStr.
Context {X Y : Type}.
Variable g : Y -> X.
Variable f : fnmut X N.
Variable f' : fnmut Y N.
Hypothesis H : forall y t, (fst (f' y t), g (snd (f' y t))) = f (g y) t.

Lemma test_next_nat c y : omap (push g) (test_next f' c y) = test_next f c (g y).
Proof.
  unfold test_next. destruct (chars_next c) as [[[t|] c']| |]; cbn; auto. destruct (fn_cases g f f' H y t) as [b [y' [-> ->]]]. destruct b; reflexivity.
Qed.
Lemma test_nexts_nat n : forall c y, omap (push g) (test_nexts f' n c y) = test_nexts f n c (g y).
Proof.
  induction n as [|n IH]; intros c y; [reflexivity|]. cbn [test_nexts]. rewrite <- test_next_nat.
  destruct (test_next f' c y) as [[[[k|] c'] y']| |]; cbn; auto.
Qed.
Lemma str_loop_nat n : forall c y, omap (push g) (str_loop f' n c y) = str_loop f n c (g y).
Proof.
  induction n as [|n IH]; intros c y; [reflexivity|]. cbn [str_loop]. rewrite <- test_nexts_nat.
  destruct (test_nexts f' 8 c y) as [[[[k|] c'] y']| |]; cbn [omap push obind]; auto.
Qed.
Lemma str_scan_nat s c y : omap (push g) (str_scan f' s c y) = str_scan f s c (g y).
Proof.
  unfold str_scan. rewrite <- str_loop_nat. 
  match goal with |- context [str_loop f' ?n c y] => destruct (str_loop f' n c y) as [[[k c'] y']| |] end; cbn [omap push obind]; auto.
  destruct (length s <? length c' + k); auto.
  match goal with |- context [str_split_at ?a ?b] => destruct (str_split_at a b) as [[]| |] end; reflexivity.
Qed.
Lemma str_while_nat s y : omap (push g) (str_uncons_while f' s y) = str_uncons_while f s (g y).
Proof. unfold str_uncons_while. rewrite <- str_scan_nat. destruct (str_scan f' s s y) as [[[]]| |]; reflexivity. Qed.
Lemma str_while1_nat s y : omap (push g) (str_uncons_while1 f' s y) = str_uncons_while1 f s (g y).
Proof.
  unfold str_uncons_while1. destruct (chars_next s) as [[[t|] c]| |]; cbn [obind]; auto. destruct (fn_cases g f f' H y t) as [b [y' [-> ->]]]. destruct b; auto.
  rewrite <- str_scan_nat. destruct (str_scan f' s c y') as [[[]]| |]; reflexivity.
Qed.
End NatStr.

Lemma natural_slice d n T : natural (slice_strm d n T).
Proof.
  intros X Y g f f' H s y. cbn. rewrite <- (sl_while_nat g f f' H), <- (sl_while1_nat g f f' H).
  destruct (sl_uncons_while d f' (snd s) y) as [[[]]| |], (sl_uncons_while1 d f' (snd s) y) as [[[]]| |]; split; reflexivity.
Qed.
Lemma natural_str : natural str_strm.
Proof.
  intros X Y g f f' H s y. cbn. rewrite <- (str_while_nat g f f' H), <- (str_while1_nat g f f' H).
  destruct (str_uncons_while f' (snd s) y) as [[[]]| |], (str_uncons_while1 f' (snd s) y) as [[[]]| |]; split; reflexivity.
Qed.

Section NatWrap.
Context {S T R P K SE PE : Type}.
Variable I : strm S T R P K SE PE.
Hypothesis HN : natural I.
Lemma natural_partial b : natural (set_partial I b).
Proof. exact HN. Qed.
Lemma natural_state U : natural (state_strm I U).
Proof.
  intros X Y g f f' H [s u] y. cbn. destruct (HN X Y g f f' H s y) as [<- <-].
  destruct (w_while I f' s y) as [[[]]| |], (w_while1 I f' s y) as [[[]]| |]; split; reflexivity.
Qed.
Lemma natural_maybe : natural (maybe_strm I).
Proof.
  intros X Y g f f' H [s u] y. cbn. destruct (HN X Y g f f' H s y) as [<- <-].
  destruct (w_while I f' s y) as [[[]]| |], (w_while1 I f' s y) as [[[]]| |]; split; reflexivity.
Qed.
Lemma natural_conv {P2 SE2 PE2} (fp : P -> P2) (fs : SE -> SE2) (fe : PE -> PE2) : natural (conv_strm I fp fs fe).
Proof.
  intros X Y g f f' H s y. cbn. destruct (HN X Y g f f' H s y) as [<- <-].
  destruct (w_while I f' s y) as [[[]]| |], (w_while1 I f' s y) as [[[]]| |]; split; reflexivity.
Qed.
Lemma natural_pos {Q} (posr : positioner Q T R) : natural (pos_strm I posr).
Proof.
  intros X Y g f f' H [s q] y. cbn [pos_strm w_while w_while1 fst snd].
  assert (HH : forall (z : Y * Q) t, (fst (ps_closure posr f' z t), (fun z => (g (fst z), snd z)) (snd (ps_closure posr f' z t))) = ps_closure posr f ((fun z => (g (fst z), snd z)) z) t).
  { intros [z p] t. unfold ps_closure. cbn [fst snd]. specialize (H z t). destruct (f' z t) as [b z']. rewrite <- H. cbn. destruct b; reflexivity. }
  destruct (HN (X * Q)%type (Y * Q)%type (fun z => (g (fst z), snd z)) (ps_closure posr f) (ps_closure posr f') HH s (y, q)) as [H1 H2].
  cbn [fst snd] in H1, H2. rewrite <- H1, <- H2.
  destruct (w_while I (ps_closure posr f') s (y, q)) as [[[? ?] []]| |], (w_while1 I (ps_closure posr f') s (y, q)) as [[[? ?] []]| |]; split; reflexivity.
Qed.
End NatWrap.
