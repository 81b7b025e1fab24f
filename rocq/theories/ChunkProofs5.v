(** Proofs for C29: choices. *)
From Coq Require Import String List Bool Arith NArith Lia.
Import ListNotations.
From Verif Require Import Base Parser Token Combinator Sequence Choice Repeat RangeP Spec SeqSpec ChoiceSpec TidySpec RepeatSpec AgreeSpec.
From Verif Require Import ResultProofs SeqProofs CombProofs ChoiceProofs CombProofs2 RepeatProofs ChunkSpec ChunkProofs ChunkProofs2 ChunkProofs3 ChunkProofs4.
Unset Implicit Arguments.

Section ChoiceChunk.
Context {C : Cfg}.
Notation T := (tok C).
Notation E := (Err C).
Notation nonempty := consumed_some.
Variable EL : eoi_laws C.
Variable L : lawful C.
Variable D : pos_distinct C.

Lemma choice_one {S A} (p : parser C S A) : maps_beh (fun x => x) (fresh p) (fresh (choice (AL p))).
Proof.
  intros i r i' Q. destruct (choice_ordered (AL p)) as [_ [_ O3]]. destruct (O3 _ _ _ Q) as [K|K]; simpl in K.
  - inversion K as [b bs j r0 j' Hb Hn|b bs j r0 i0 r1 j' Hb Hn Hl]; subst; [|inversion Hl]. exists r, i'. split; [exact Hb|].
    split; [reflexivity|]. split; [destruct (value_of r); reflexivity|auto].
  - inversion K as [|b bs Hb Hl]; subst. destruct (fails_inv _ _ _ Hb) as [r0 [i0 [F1 [F2 [F3 F4]]]]].
    exists r0, i0. split; [exact F1|]. rewrite F3, F4, F2. destruct (choice_ordered (AL p)) as [_ [O2 _]]. pose proof (O2 i K) as F.
    destruct (fails_inv _ _ _ F) as [r2 [i2 [G1 [G2 [G3 G4]]]]]. rewrite Q in G1. inversion G1; subst. split; [exact G3|]. split; [exact G4|]. discriminate.
Qed.

Lemma choice_more {S A SS} (p : parser C S A) (t : alts A SS) i r i' : fresh (choice (AC p t)) i = Done (r, i') ->
  exists r0 i0, fresh p i = Done (r0, i0) /\
    if backtracks r0 then exists r1 i1, fresh (choice t) i = Done (r1, i1) /\ committed r = committed r1 /\ value_of r = value_of r1 /\
                            (is_ok r1 = true -> i' = i1)
    else r = r0 /\ i' = i0.
Proof.
  intros Q. destruct (choice_ordered (AC p t)) as [_ [O2 O3]]. destruct (choice_ordered t) as [P1 [P2 _]]. destruct (O3 _ _ _ Q) as [K|K].
  - simpl in K. inversion K as [b bs j r0 j' Hb Hn|b bs j r0 i0 r1 j' Hb Hn Hl]; subst.
    + exists r, i'. split; [exact Hb|]. rewrite Hn. auto.
    + exists r0, i0. split; [exact Hb|]. rewrite Hn. exists r, i'. split; [apply P1; exact Hl|]. auto.
  - pose proof (O2 _ K) as F. simpl in K. inversion K as [|b bs Hb Hl]; subst. apply fails_false in Hb. destruct Hb as [e [i0 Hb]].
    exists (PeekErr e), i0. split; [exact Hb|]. simpl. destruct (fails_inv _ _ _ (P2 _ Hl)) as [r2 [i2 [G1 [G2 [G3 G4]]]]].
    exists r2, i2. split; [exact G1|]. destruct (fails_inv _ _ _ F) as [r3 [i3 [F1 [F2 [F3 F4]]]]]. rewrite Q in F1. inversion F1; subst.
    split; [congruence|]. split; [congruence|]. congruence.
Qed.

Section More.
Context {S A SS : Type} (p : parser C S A) (t : alts (C:=C) A SS).
Lemma ch_ok1 f pos w1 w2 v : always_ok f (fresh p) pos w1 w2 v -> always_ok f (fresh (choice (AC p t))) pos w1 w2 v.
Proof.
  intros H m Hm r i' Q. destruct (choice_more _ _ _ _ _ Q) as [r0 [i0 [K1 K2]]]. destruct (H m Hm _ _ K1) as [K3 K4]. subst.
  destruct (nonempty w1); simpl in *; destruct K2; subst; auto.
Qed.
Lemma ch_err1 f pos w : always_err f (fresh p) pos w true -> always_err f (fresh (choice (AC p t))) pos w true.
Proof.
  intros H m Hm r i' Q. destruct (choice_more _ _ _ _ _ Q) as [r0 [i0 [K1 K2]]]. destruct (H m Hm _ _ K1) as [K3 K4].
  destruct r0; try discriminate. simpl in K2. destruct K2; subst; auto.
Qed.
Lemma ch_ok2 f pos w1 w2 v : always_err f (fresh p) pos (w1 ++ w2) false -> always_ok f (fresh (choice t)) pos w1 w2 v ->
  always_ok f (fresh (choice (AC p t))) pos w1 w2 v.
Proof.
  intros HP H m Hm r i' Q. destruct (choice_more _ _ _ _ _ Q) as [r0 [i0 [K1 K2]]]. rewrite app_assoc in K1. destruct (HP m Hm _ _ K1) as [K3 K4].
  destruct r0; try discriminate. simpl in K2. destruct K2 as [r1 [i1 [K5 [K6 [K7 K8]]]]]. destruct (H m Hm _ _ K5) as [K9 K10]. subst.
  rewrite committed_okr in K6. rewrite value_okr in K7. rewrite value_ok, value_okr in K8. split; [rewrite <- K6; apply okr_value; exact K7|auto].
Qed.
Lemma ch_err2 f pos w c : always_err f (fresh p) pos w false -> always_err f (fresh (choice t)) pos w c ->
  always_err f (fresh (choice (AC p t))) pos w c.
Proof.
  intros HP H m Hm r i' Q. destruct (choice_more _ _ _ _ _ Q) as [r0 [i0 [K1 K2]]]. destruct (HP m Hm _ _ K1) as [K3 K4].
  destruct r0; try discriminate. simpl in K2. destruct K2 as [r1 [i1 [K5 [K6 [K7 K8]]]]]. destruct (H m Hm _ _ K5) as [K9 K10].
  rewrite value_ok in *. rewrite K7. split; [exact K9|congruence].
Qed.
End More.

Notation noneoiE := (fun e : trk E => e_is_eoi C (terr e) = false).

(** What trying the alternatives on a chunk tells. *)
Definition try_out (n h f : bool) {A SS} (Ralt : bool -> Pos C -> list T -> list T -> SS -> Prop) (t : alts (C:=C) A SS)
    (pos : Pos C) (r : list T) (x : tried (C:=C) A SS) : Prop :=
  match x with
  | TEnd res i' so =>
      match res with
      | CommitOk v | PeekOk v => (exists r1, r = r1 ++ rest i' /\ i' = Inp (rest i') (pos_after pos r1) f /\
           always_ok f (fresh (choice t)) pos r1 (rest i') v /\ committed res = nonempty r1) /\ so = None /\ (h = true -> f = true -> r <> [])
      | CommitErr e =>
          (f = true /\ e_is_eoi C e = true /\ exists r1, r = r1 ++ rest i' /\ i' = Inp (rest i') (pos_after pos r1) f /\
             match so with None => r1 = [] | Some s => r1 <> [] /\ forall g, Ralt g pos r1 (rest i') s end) \/
          ((f = true -> e_is_eoi C e = false /\ (h = true -> r <> [])) /\ always_err f (fresh (choice t)) pos r true)
      | PeekErr _ => False
      end
  | TFail errs => n = false /\ (f = true -> Forall noneoiE errs /\ r <> []) /\ always_err f (fresh (choice t)) pos r false
  end.

Record alt_by (x a n h : bool) {A SS} (Ralt : bool -> Pos C -> list T -> list T -> SS -> Prop) (t : alts (C:=C) A SS) : Prop := {
  ab_atomic : a = true -> forall f pos l k s, Ralt f pos l k s -> l = [];
  ab_err : Forall noneoi (alts_adderr t);
  ab_try : forall f pos r y, choice_try t (Inp r pos f) = Done y -> try_out n h f Ralt t pos r y;
  ab_res : forall f pos l k r' s, l <> [] -> Ralt f pos l k s -> forall out,
    choice_resume t false (Inp (k ++ r') (pos_after pos l) f) s = Done out ->
    fits x a n h f (fun _ _ => True) Ralt (fresh (choice t)) pos l (k ++ r') out
}.

Lemma pos_same pos r1 : pos_eqb C (pos_after pos r1) pos = negb (nonempty r1).
Proof.
  destruct r1 as [|t r1].
  - simpl. apply (law_pos L). reflexivity.
  - simpl nonempty. simpl negb. destruct (pos_eqb C (pos_after pos (t :: r1)) pos) eqn:Q; auto. apply (law_pos L) in Q. apply D in Q. discriminate.
Qed.

Lemma try_one_out x a n h {S A} Cln Res (p : parser C S A) : chunk_by x a n h Cln Res p -> forall f pos r y,
  try_one p (Inp r pos f) = Done y ->
  match y with
  | TEnd res i' so =>
      match res with
      | CommitOk v | PeekOk v => (exists r1, r = r1 ++ rest i' /\ i' = Inp (rest i') (pos_after pos r1) f /\
           always_ok f (fresh p) pos r1 (rest i') v /\ committed res = nonempty r1) /\ so = None /\ (h = true -> f = true -> r <> [])
      | CommitErr e =>
          (f = true /\ e_is_eoi C e = true /\ exists r1, r = r1 ++ rest i' /\ i' = Inp (rest i') (pos_after pos r1) f /\
             match so with None => r1 = [] | Some s => r1 <> [] /\ forall g, Res g pos r1 (rest i') s end) \/
          ((f = true -> e_is_eoi C e = false /\ (h = true -> r <> [])) /\ always_err f (fresh p) pos r true)
      | PeekErr _ => False
      end
  | TFail errs => n = false /\ (f = true -> Forall noneoiE errs /\ r <> []) /\ always_err f (fresh p) pos r false
  end.
Proof.
  intros H f pos r y Q. unfold try_one in Q. destruct (p_run p true (Inp r pos f) (p_init p)) as [[[res i'] s']| |] eqn:Q1; try discriminate.
  assert (St : started Cln Res f true pos [] [] (p_init p)) by (simpl; split; [reflexivity|split; [reflexivity|apply (cb_init H)]]).
  pose proof (cb_run H f true pos [] [] r (p_init p) St _ Q1) as F. simpl in Q. unfold fits in F. simpl in F.
  destruct res as [v|v|e|e]; inversion Q; subst y; clear Q.
  - destruct F as [[r1 [F1 [F2 [F3 F4]]]] [F5 F6]]. split; [|split; [reflexivity|exact F6]]. exists r1. auto.
  - destruct F as [[r1 [F1 [F2 [F3 F4]]]] [F5 F6]]. split; [|split; [reflexivity|exact F6]]. exists r1. auto.
  - destruct F as [[F1 [F2 [r1 [F3 [F4 [F5 F6]]]]]]|F]; [left|right; exact F]. split; [exact F1|]. split; [exact F2|]. exists r1.
    split; [exact F3|]. split; [exact F4|]. rewrite F4. simpl. rewrite pos_same. destruct r1; simpl; auto. split; [discriminate|]. intros g. apply F6.
  - destruct F as [F1 [F2 [F3 [F4 F5]]]]. split; [exact F1|]. split; [|exact F5]. intros Hf. destruct (F2 Hf). auto.
Qed.

Lemma alt_one x a n h {S A} Cln Res (p : parser C S A) : chunk_by x a n h Cln Res p -> alt_by x a n h Res (AL p).
Proof.
  intros H. pose proof (choice_one p) as W. constructor.
  - apply (cb_atomic H).
  - simpl. constructor; [apply (cb_adderr H)|constructor].
  - intros f pos r y Q. simpl in Q. pose proof (try_one_out _ _ _ _ _ _ _ H _ _ _ _ Q) as K. unfold try_out. destruct y as [res i' so|errs].
    + destruct res as [v|v|e|e]; auto.
      * destruct K as [[r1 [K1 [K2 [K3 K4]]]] K5]. split; [|exact K5]. exists r1. split; [exact K1|]. split; [exact K2|]. split; [|exact K4].
        apply (maps_always_ok (fun x => x) _ _ _ _ _ _ _ W K3).
      * destruct K as [[r1 [K1 [K2 [K3 K4]]]] K5]. split; [|exact K5]. exists r1. split; [exact K1|]. split; [exact K2|]. split; [|exact K4].
        apply (maps_always_ok (fun x => x) _ _ _ _ _ _ _ W K3).
      * destruct K as [K|[K1 K2]]; [left; exact K|right]. split; [exact K1|]. apply (maps_always_err (fun x => x) _ _ _ _ _ _ W K2).
    + destruct K as [K1 [K2 K3]]. split; [exact K1|]. split; [exact K2|]. apply (maps_always_err (fun x => x) _ _ _ _ _ _ W K3).
  - intros f pos l k r' s Hl HR out Q. simpl in Q. pose proof (cb_run H f false pos l k r' s HR _ Q) as F. destruct out as [[res i'] s'].
    unfold fits in *. destruct res as [v|v|e|e].
    + destruct F as [[r1 [K1 [K2 [K3 K4]]]] [_ K5]]. split; [|split; [exact I|exact K5]]. exists r1. split; [exact K1|]. split; [exact K2|]. split; [|exact K4].
      apply (maps_always_ok (fun x => x) _ _ _ _ _ _ _ W K3).
    + destruct F as [[r1 [K1 [K2 [K3 K4]]]] [_ K5]]. split; [|split; [exact I|exact K5]]. exists r1. split; [exact K1|]. split; [exact K2|]. split; [|exact K4].
      apply (maps_always_ok (fun x => x) _ _ _ _ _ _ _ W K3).
    + destruct F as [K|[K1 K2]]; [left; exact K|right]. split; [exact K1|]. apply (maps_always_err (fun x => x) _ _ _ _ _ _ W K2).
    + destruct F as [K1 [K2 [K3 [K4 K5]]]]. split; [exact K1|]. split; [exact K2|]. split; [exact K3|]. split; [intros _; exact I|].
      apply (maps_always_err (fun x => x) _ _ _ _ _ _ W K5).
Qed.

Definition ralt {S A SS} (n : bool) (p : parser C S A) (Res : bool -> Pos C -> list T -> list T -> S -> Prop)
    (Ralt : bool -> Pos C -> list T -> list T -> SS -> Prop) (f : bool) (pos : Pos C) (l k : list T) (st : S + SS) : Prop :=
  match st with
  | inl s => Res f pos l k s
  | inr s => n = false /\ always_err true (fresh p) pos (l ++ k) false /\ Ralt f pos l k s
  end.

Lemma alt_cons x a n h x2 a2 n2 h2 {S A SS} Cln Res Ralt (p : parser C S A) (t : alts A SS) :
  chunk_by x a n h Cln Res p -> alt_by x2 a2 n2 h2 Ralt t ->
  alt_by (x && x2) (a && a2) (n || x && n2) (h && h2) (ralt n p Res Ralt) (AC p t).
Proof.
  intros H HT. destruct HT as [TA TE TT TR]. constructor.
  - intros Ha f pos l k s. apply andb_true_iff in Ha. destruct Ha as [Ha1 Ha2]. destruct s as [s|s]; simpl; [apply (cb_atomic H Ha1)|].
    intros [_ [_ K]]. apply (TA Ha2 _ _ _ _ _ K).
  - simpl. constructor; [apply (cb_adderr H)|exact TE].
  - intros f pos r y Q. simpl in Q. destruct (try_one p (Inp r pos f)) as [y1| |] eqn:Q1; try discriminate. 
    pose proof (try_one_out _ _ _ _ _ _ _ H _ _ _ _ Q1) as K. simpl in Q. destruct y1 as [res i' so|errs].
    + inversion Q; subst y. unfold try_out. destruct res as [v|v|e|e].
      * destruct K as [[r1 [K1 [K2 [K3 K4]]]] [K5 K6]]. subst so. split; [|split; [reflexivity|intros Hh; apply andb_true_iff in Hh; apply K6; apply Hh]].
        exists r1. split; [exact K1|]. split; [exact K2|]. split; [apply ch_ok1; exact K3|exact K4].
      * destruct K as [[r1 [K1 [K2 [K3 K4]]]] [K5 K6]]. subst so. split; [|split; [reflexivity|intros Hh; apply andb_true_iff in Hh; apply K6; apply Hh]].
        exists r1. split; [exact K1|]. split; [exact K2|]. split; [apply ch_ok1; exact K3|exact K4].
      * destruct K as [[K1 [K2 [r1 [K3 [K4 K5]]]]]|[K1 K2]].
        -- left. split; [exact K1|]. split; [exact K2|]. exists r1. split; [exact K3|]. split; [exact K4|]. destruct so as [s|]; exact K5.
        -- right. split; [|apply ch_err1; exact K2]. intros Hf. destruct (K1 Hf) as [G1 G2]. split; [exact G1|]. intros Hh. apply andb_true_iff in Hh. apply G2. apply Hh.
      * destruct K.
    + destruct K as [K1 [K2 K3]]. destruct (choice_try t (Inp r pos f)) as [y2| |] eqn:Q2; try discriminate. simpl in Q. 
      pose proof (TT _ _ _ _ Q2) as F. destruct y2 as [res i' so|errs']; inversion Q; subst y; clear Q; unfold try_out in *.
      * destruct res as [v|v|e|e].
        -- destruct F as [[r1 [F1 [F2 [F3 F4]]]] [F5 F6]]. subst so. split; [|split; [reflexivity|intros Hh; apply andb_true_iff in Hh; apply F6; apply Hh]].
           exists r1. split; [exact F1|]. split; [exact F2|]. split; [apply ch_ok2; [rewrite <- F1; exact K3|exact F3]|exact F4].
        -- destruct F as [[r1 [F1 [F2 [F3 F4]]]] [F5 F6]]. subst so. split; [|split; [reflexivity|intros Hh; apply andb_true_iff in Hh; apply F6; apply Hh]].
           exists r1. split; [exact F1|]. split; [exact F2|]. split; [apply ch_ok2; [rewrite <- F1; exact K3|exact F3]|exact F4].
        -- destruct F as [[F1 [F2 [r1 [F3 [F4 F5]]]]]|[F1 F2]].
           ++ left. split; [exact F1|]. split; [exact F2|]. exists r1. split; [exact F3|]. split; [exact F4|]. destruct so as [s|]; simpl; [|exact F5].
              destruct F5 as [F5 F6]. split; [exact F5|]. intros g. split; [exact K1|]. subst f. split; [rewrite <- F3; exact K3|apply F6].
           ++ right. split; [|apply ch_err2; [exact K3|exact F2]]. intros Hf. destruct (F1 Hf) as [G1 G2]. split; [exact G1|]. intros Hh. apply andb_true_iff in Hh. apply G2. apply Hh.
        -- destruct F.
      * destruct F as [F1 [F2 F3]]. split; [rewrite K1, F1; apply andb_false_r|]. split; [|apply ch_err2; [exact K3|exact F3]].
        intros Hf. destruct (K2 Hf) as [G1 G2]. destruct (F2 Hf) as [G3 G4]. split; [apply Forall_app; split; assumption|exact G2].
  - intros f pos l k r' st Hl HR out Q. destruct st as [s|s]; simpl in HR, Q.
    + destruct (p_run p false (Inp (k ++ r') (pos_after pos l) f) s) as [[[res i'] s']| |] eqn:Q1; try discriminate. inversion Q; subst out; clear Q.
      pose proof (cb_run H f false pos l k r' s HR _ Q1) as F. unfold fits in *. destruct res as [v|v|e|e].
      * destruct F as [[r1 [F1 [F2 [F3 F4]]]] [F5 F6]]. split; [|split; [exact I|intros Hh; apply andb_true_iff in Hh; apply F6; apply Hh]].
        exists r1. split; [exact F1|]. split; [exact F2|]. split; [apply ch_ok1; exact F3|exact F4].
      * destruct F as [[r1 [F1 [F2 [F3 F4]]]] [F5 F6]]. split; [|split; [exact I|intros Hh; apply andb_true_iff in Hh; apply F6; apply Hh]].
        exists r1. split; [exact F1|]. split; [exact F2|]. split; [apply ch_ok1; exact F3|exact F4].
      * destruct F as [[F1 [F2 [r1 [F3 [F4 [F5 F6]]]]]]|[F1 F2]].
        -- left. split; [exact F1|]. split; [exact F2|]. exists r1. split; [exact F3|]. split; [exact F4|]. split; [|exact F6].
           intros Ha. apply andb_true_iff in Ha. apply F5. apply Ha.
        -- right. split; [|apply ch_err1; exact F2]. intros Hf. destruct (F1 Hf) as [G1 G2]. split; [exact G1|]. intros Hh. apply andb_true_iff in Hh. apply G2. apply Hh.
      * destruct F as [F1 [F2 [F3 [F4 F5]]]]. destruct F3 as [F3|F3]; [contradiction|]. split; [rewrite F1, F3; reflexivity|]. split; [exact F2|].
        split; [right; rewrite F3; reflexivity|]. split; [intros _; exact I|]. destruct l; [contradiction|]. apply ch_err1. exact F5.
    + destruct HR as [HR1 [HR2 HR3]]. destruct (choice_resume t false (Inp (k ++ r') (pos_after pos l) f) s) as [[[res i'] s']| |] eqn:Q1; try discriminate.
      inversion Q; subst out; clear Q. pose proof (TR _ _ _ _ _ _ Hl HR3 _ Q1) as F.
      assert (HP : always_err f (fresh p) pos (l ++ k ++ r') false) by (rewrite app_assoc; apply always_err_ext; exact HR2).
      unfold fits in *. destruct res as [v|v|e|e].
      * destruct F as [[r1 [F1 [F2 [F3 F4]]]] [F5 F6]]. split; [|split; [exact I|intros Hh; apply andb_true_iff in Hh; apply F6; apply Hh]].
        exists r1. split; [exact F1|]. split; [exact F2|]. split; [apply ch_ok2; [rewrite <- app_assoc, <- F1; exact HP|exact F3]|exact F4].
      * destruct F as [[r1 [F1 [F2 [F3 F4]]]] [F5 F6]]. split; [|split; [exact I|intros Hh; apply andb_true_iff in Hh; apply F6; apply Hh]].
        exists r1. split; [exact F1|]. split; [exact F2|]. split; [apply ch_ok2; [rewrite <- app_assoc, <- F1; exact HP|exact F3]|exact F4].
      * destruct F as [[F1 [F2 [r1 [F3 [F4 [F5 F6]]]]]]|[F1 F2]].
        -- left. split; [exact F1|]. split; [exact F2|]. exists r1. split; [exact F3|]. split; [exact F4|]. 
           split; [intros Ha; apply andb_true_iff in Ha; apply F5; apply Ha|]. intros g. simpl. split; [exact HR1|]. subst f.
           split; [rewrite <- app_assoc, <- F3; exact HP|apply F6].
        -- right. split; [|apply ch_err2; [exact HP|exact F2]]. intros Hf. destruct (F1 Hf) as [G1 G2]. split; [exact G1|]. intros Hh. apply andb_true_iff in Hh. apply G2. apply Hh.
      * destruct F as [F1 [F2 [F3 [F4 F5]]]]. destruct F3 as [F3|F3]; [contradiction|]. split; [rewrite HR1, F1; apply andb_false_r|]. split; [exact F2|].
        split; [right; rewrite F3; apply andb_false_r|]. split; [intros _; exact I|]. apply ch_err2; [exact HP|exact F5].
Qed.

(** * The errors *)
Lemma merge_errs_ok : forall l e, noneoiE e -> Forall noneoiE l -> e_is_eoi C (merge_errs e l) = false.
Proof.
  induction l as [|e' l IH]; simpl; intros e He Hl; auto. inversion Hl; subst. apply (el_merge EL); auto.
Qed.
Lemma choice_extract_ok : forall errs fns error, Forall noneoi fns -> noneoiE error -> noneoiE (choice_extract errs fns error).
Proof.
  induction errs as [|e errs IH]; simpl; intros fns error HF He; auto. destruct fns as [|g fns]; auto. inversion HF as [|? ? G1 G2]; subst.
  apply IH; auto. destruct (toff e =? 1)%N; auto. simpl. apply G1. exact He.
Qed.
Lemma choice_error_ok errs fns e : Forall noneoi fns -> Forall noneoiE errs -> choice_error errs fns = Some e -> noneoiE e.
Proof.
  intros HF HE Q. destruct errs as [|e0 l]; [discriminate|]. simpl choice_error in Q. inversion Q; subst. inversion HE; subst.
  apply (choice_extract_ok (e0 :: l) fns); auto. simpl. apply merge_errs_ok; auto.
Qed.
Lemma fold_adderr_ok : forall fns e, Forall noneoi fns -> noneoiE e -> noneoiE (fold_left (fun e (f : trk E -> trk E) => f (set_off e 1%N)) fns e).
Proof. induction fns as [|g fns IH]; simpl; intros e HF He; auto. inversion HF as [|? ? G1 G2]; subst. apply IH; auto. Qed.
Lemma choice_adderr_ok (fns : list (trk E -> trk E)) : Forall noneoi fns -> noneoi (choice_adderr fns).
Proof.
  intros HF u Hu. unfold choice_adderr. simpl. unfold add_error_choice. destruct (toff u =? 0)%N; auto. apply fold_adderr_ok; auto.
Qed.

Definition chcln {SS} (_ : bool) (st : option SS) : Prop := st = None.
Definition chres {SS} (Ralt : bool -> Pos C -> list T -> list T -> SS -> Prop) (f : bool) (pos : Pos C) (l k : list T) (st : option SS) : Prop :=
  match st with None => l = [] | Some s => l <> [] /\ Ralt f pos l k s end.

Lemma chunk_alts x a n h {A SS} Ralt (t : alts A SS) ad : alt_by x a n h Ralt t -> noneoi ad ->
  chunk_by x a n h chcln (chres Ralt) (mk_mode None (choice_run t) ad no_err 1).
Proof.
  intros HT HA. destruct HT as [TA TE TT TR]. constructor; simpl; auto; try reflexivity.
  - intros f pos s ->. reflexivity.
  - intros Ha f pos l k [s|]; simpl; auto. intros [_ K]. apply (TA Ha _ _ _ _ _ K).
  - apply noneoi_no.
  - intros f first pos l k r' st St out E0.
    change (fresh (mk_mode None (choice_run t) ad no_err 1)) with (fresh (choice t)).
    assert (K : (st = None /\ l = []) \/ (first = false /\ exists s, st = Some s /\ l <> [] /\ Ralt f pos l k s)).
    { destruct first; simpl in St; [left; destruct St as [K1 [_ K2]]; auto|]. destruct st as [s|]; [right|left; auto]. split; [reflexivity|]. exists s. auto. }
    destruct K as [[-> ->]|[-> [s [-> [Hl HR]]]]].
    + simpl pos_after in E0. set (r := k ++ r') in *.
      assert (E1 : obind (choice_try t (Inp r pos f)) (fun x0 => match x0 with
          | TEnd r0 i' s' => Done (r0, i', match s' with Some s => Some s | None => None end)
          | TFail errs => match choice_error errs (alts_adderr t) with Some e => Done (PeekErr e, Inp r pos f, None) | None => Panic end
          end) = Done out) by (unfold choice_run in E0; destruct first; exact E0). clear E0.
      destruct (choice_try t (Inp r pos f)) as [y| |] eqn:Q; try discriminate. pose proof (TT _ _ _ _ Q) as F. simpl in E1. unfold try_out in F.
      destruct y as [res i' so|errs].
      * inversion E1; subst out; clear E1. unfold fits. simpl. destruct res as [v|v|e|e].
        -- destruct F as [[r1 [F1 [F2 [F3 F4]]]] [F5 F6]]. subst so. split; [|split; [reflexivity|exact F6]]. exists r1. auto.
        -- destruct F as [[r1 [F1 [F2 [F3 F4]]]] [F5 F6]]. subst so. split; [|split; [reflexivity|exact F6]]. exists r1. auto.
        -- destruct F as [[F1 [F2 [r1 [F3 [F4 F5]]]]]|F]; [left|right; exact F]. split; [exact F1|]. split; [exact F2|]. exists r1. split; [exact F3|]. split; [exact F4|].
           destruct so as [s|].
           ++ destruct F5 as [F5 F6]. split; [|intros g; simpl; split; [exact F5|apply F6]]. intros Ha. destruct F5. apply (TA Ha _ _ _ _ _ (F6 true)).
           ++ subst r1. split; [auto|]. intros g. reflexivity.
        -- destruct F.
      * destruct (choice_error errs (alts_adderr t)) as [e|] eqn:QE; try discriminate. inversion E1; subst out; clear E1.
        destruct F as [F1 [F2 F3]]. unfold fits. simpl. split; [exact F1|]. split; [|split; [auto|split; [reflexivity|exact F3]]].
        intros Hf. destruct (F2 Hf) as [G1 G2]. split; [|exact G2]. apply (choice_error_ok errs (alts_adderr t)); auto.
    + simpl in E0. destruct (choice_resume t false (Inp (k ++ r') (pos_after pos l) f) s) as [[[res i'] s']| |] eqn:Q; try discriminate.
      inversion E0; subst out; clear E0. pose proof (TR _ _ _ _ _ _ Hl HR _ Q) as F. unfold fits in *. destruct res as [v|v|e|e]; simpl.
      * destruct F as [F1 [_ F2]]. split; [exact F1|]. split; [reflexivity|exact F2].
      * destruct F as [F1 [_ F2]]. split; [exact F1|]. split; [reflexivity|exact F2].
      * destruct F as [[F1 [F2 [r1 [F3 [F4 [F5 F6]]]]]]|F]; [left|right; exact F]. split; [exact F1|]. split; [exact F2|]. exists r1. split; [exact F3|]. split; [exact F4|].
        split; [exact F5|]. intros g. split; [intros Hn; apply app_eq_nil in Hn; apply Hl; apply Hn|apply F6].
      * destruct F as [F1 [F2 [F3 [F4 F5]]]]. split; [exact F1|]. split; [exact F2|]. split; [exact F3|]. split; [|exact F5].
        destruct F3 as [F3|F3]; [contradiction|]. rewrite F3. discriminate.
Qed.

Lemma chunk_choice x a n h {A SS} Ralt (t : alts A SS) : alt_by x a n h Ralt t -> chunk_by x a n h chcln (chres Ralt) (choice t).
Proof. intros H. apply chunk_alts; [exact H|]. apply choice_adderr_ok. apply (ab_err _ _ _ _ _ _ H). Qed.

Lemma chunk_or x1 a1 n1 h1 x2 a2 n2 h2 {S1 S2 A} Cln1 Res1 Cln2 Res2 (p : parser C S1 A) (q : parser C S2 A) :
  chunk_by x1 a1 n1 h1 Cln1 Res1 p -> chunk_by x2 a2 n2 h2 Cln2 Res2 q ->
  chunk_by (x1 && x2) (a1 && a2) (n1 || x1 && n2) (h1 && h2) chcln (chres (ralt n1 p Res1 Res2)) (or_ p q).
Proof.
  intros H1 H2. pose proof (alt_cons _ _ _ _ _ _ _ _ _ _ _ _ _ H1 (alt_one _ _ _ _ _ _ _ H2)) as HT. unfold or_. apply chunk_alts; [exact HT|].
  intros u Hu. destruct (toff u =? 0)%N; auto. apply choice_adderr_ok; auto. apply (ab_err _ _ _ _ _ _ HT).
Qed.
End ChoiceChunk.
