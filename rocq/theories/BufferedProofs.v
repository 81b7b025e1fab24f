(** Refinement of [buffered::Stream] by the stream with a log. *)
From Coq Require Import String List Bool Arith NArith Lia.
Import ListNotations.
From Verif Require Import Base BufferedM BufferedSpec.
Unset Implicit Arguments.

Section BProofs.
Context {Src T P E : Type}.
Variable src_pos : Src -> P.
Variable src_uncons : Src -> (T + E) * Src.
Variable grow : nat -> nat.
Variable keep : nat.
Hypothesis Hkeep : 0 < keep.

Notation bst := (@bstream Src T P).
Notation rst := (@rstream Src T P).

(** [r] simulates [b]: the buffer holds the last [keep] entries of the log. *)
Definition rel (src0 : Src) (b : bst) (r : rst) (cps : list nat) : Prop :=
  biter b = rsrc r /\ boffset b = roff r /\ bbuf_offset b = length (rlog r) /\
  bbuf b = skipn (length (rlog r) - keep) (rlog r) /\
  (bcap b = keep \/ (bcap b = 0 /\ rlog r = [] /\ keep = grow 0)) /\
  roff r <= length (rlog r) /\ length (rlog r) <= roff r + keep /\ Forall (fun cp => cp <= length (rlog r)) cps /\
  reads src_pos src_uncons src0 (rlog r) (rsrc r).

Lemma buf_len (l : list (T * P)) : length (skipn (length l - keep) l) = min keep (length l).
Proof. rewrite skipn_length. lia. Qed.
Lemma usub_ok a b : b <= a -> usub a b = Done (a - b).
Proof. intros H. unfold usub. rewrite (proj2 (Nat.leb_le _ _) H). reflexivity. Qed.
Lemma window_nth (l : list (T * P)) off : off < length l -> length l <= off + keep ->
  nth_error (skipn (length l - keep) l) (length (skipn (length l - keep) l) - (length l - off)) = nth_error l off.
Proof.
  intros H1 H2. rewrite buf_len. set (k := length l - keep). transitivity (nth_error (firstn k l ++ skipn k l) off); [|rewrite firstn_skipn; reflexivity]. rewrite nth_error_app2; rewrite firstn_length; [|lia].
  f_equal. lia.
Qed.

Lemma sim_position src0 b r cps : rel src0 b r cps -> b_position src_pos b = Done (r_position src_pos r).
Proof.
  intros (H1 & H2 & H3 & H4 & H5 & H6 & H7 & H8 & H9). unfold b_position, r_position. rewrite H1, H2, H3, H4. destruct (length (rlog r) <=? roff r) eqn:Hl.
  - apply Nat.leb_le in Hl. rewrite (proj2 (nth_error_None _ _)) by lia. reflexivity.
  - apply Nat.leb_gt in Hl. rewrite usub_ok by (rewrite buf_len; lia). cbn [obind]. rewrite (proj2 (Nat.ltb_ge _ _)) by (rewrite buf_len; lia).
    rewrite usub_ok by lia. cbn [obind]. rewrite usub_ok by (rewrite buf_len; lia). cbn [obind]. unfold bindex. rewrite window_nth by lia.
    destruct (nth_error (rlog r) (roff r)) as [[t p]|] eqn:Hn; [reflexivity|]. apply nth_error_None in Hn. lia.
Qed.
Lemma sim_uncons src0 b r cps : rel src0 b r cps ->
  exists b', b_uncons src_pos src_uncons grow b = Done (fst (r_uncons src_pos src_uncons r), b') /\ rel src0 b' (snd (r_uncons src_pos src_uncons r)) cps.
Proof.
  intros HR. pose proof HR as (H1 & H2 & H3 & H4 & H5 & H6 & H7 & H8 & H9). unfold b_uncons, r_uncons. rewrite H1, H2, H3. destruct (length (rlog r) <=? roff r) eqn:Hl.
  - apply Nat.leb_le in Hl. rewrite (proj2 (nth_error_None _ _)) by lia. destruct (src_uncons (rsrc r)) as [[t|e] s'] eqn:Hs; cbn [fst snd]; (eexists; split; [reflexivity|]).
    + unfold rel. cbn [biter boffset bbuf_offset bbuf bcap rlog rsrc roff]. rewrite app_length. cbn [length].
      split; [reflexivity|]. split; [reflexivity|]. split; [reflexivity|].
      assert (Hbuf : (if length (bbuf b) =? bcap b then tl (bbuf b) else bbuf b) = skipn (length (rlog r) + 1 - keep) (rlog r)).
      { rewrite H4. destruct H5 as [H5|[H5 [H5' _]]].
        - rewrite H5, buf_len. destruct (Nat.eqb_spec (min keep (length (rlog r))) keep) as [E1|E1].
          + replace (length (rlog r) + 1 - keep) with (S (length (rlog r) - keep)) by lia.
            generalize (length (rlog r) - keep). generalize (rlog r). clear. intros l n. revert l. induction n as [|n IH]; intros [|x l]; cbn; auto. rewrite IH. destruct l; reflexivity.
          + replace (length (rlog r) - keep) with 0 by lia. replace (length (rlog r) + 1 - keep) with 0 by lia. reflexivity.
        - rewrite H5, H5'. cbn. destruct keep; [lia|]. destruct n; reflexivity. }
      split; [rewrite Hbuf; rewrite skipn_app; f_equal; replace (length (rlog r) + 1 - keep - length (rlog r)) with 0 by lia; reflexivity|].
      split.
      { left. rewrite Hbuf, skipn_length. destruct H5 as [H5|[H5 [H5' H5'']]].
        - rewrite H5. rewrite (proj2 (Nat.eqb_neq _ _)) by lia. reflexivity.
        - rewrite H5, H5'. cbn. rewrite H5''. reflexivity. }
      split; [lia|]. split; [lia|]. split; [eapply Forall_impl; [|exact H8]; cbn; intros; lia|]. eapply reads_tok; eauto.
    + unfold rel. cbn [biter boffset bbuf_offset bbuf bcap rlog rsrc roff].
      do 4 (split; [assumption || reflexivity|]). do 4 (split; [assumption|]). eapply reads_fail; eauto.
  - apply Nat.leb_gt in Hl. rewrite H4. rewrite usub_ok by (rewrite buf_len; lia). cbn [obind]. rewrite (proj2 (Nat.ltb_ge _ _)) by (rewrite buf_len; lia).
    rewrite usub_ok by lia. cbn [obind]. rewrite usub_ok by (rewrite buf_len; lia). cbn [obind]. unfold bindex. rewrite window_nth by lia.
    destruct (nth_error (rlog r) (roff r)) as [[t p]|] eqn:Hn; [|apply nth_error_None in Hn; lia]. cbn [omap fst snd]. eexists; split; [reflexivity|].
    unfold rel. cbn [biter boffset bbuf_offset bbuf bcap rlog rsrc roff]. do 4 (split; [assumption || reflexivity|]). split; [assumption|]. split; [lia|]. split; [lia|]. split; assumption.
Qed.
Lemma sim_reset src0 b r cps cp : rel src0 b r cps -> cp <= length (rlog r) ->
  exists b', b_reset src_pos cp b = Done (fst (r_reset (E:=E) src_pos keep cp r), b') /\ rel src0 b' (snd (r_reset (E:=E) src_pos keep cp r)) cps.
Proof.
  intros HR Hcp. pose proof HR as (H1 & H2 & H3 & H4 & H5 & H6 & H7 & H8 & H9). unfold b_reset, r_reset. rewrite H3, H4. rewrite usub_ok by (rewrite buf_len; lia). cbn [obind]. rewrite buf_len.
  destruct (cp + keep <? length (rlog r)) eqn:Hl.
  - apply Nat.ltb_lt in Hl. rewrite (proj2 (Nat.ltb_lt cp _)) by lia. rewrite (sim_position _ _ _ _ HR). cbn. eauto.
  - apply Nat.ltb_ge in Hl. rewrite (proj2 (Nat.ltb_ge cp _)) by lia. cbn [fst snd]. eexists; split; [reflexivity|]. unfold rel. cbn [biter boffset bbuf_offset bbuf bcap rlog rsrc roff].
    do 5 (split; [assumption || reflexivity|]). split; [lia|]. split; [lia|]. split; assumption.
Qed.
Lemma sim_calls src0 cs : forall b r cps, rel src0 b r cps ->
  exists b', b_calls src_pos src_uncons grow cs b cps =
    Done (fst (fst (r_calls src_pos src_uncons keep cs r cps)), b', snd (r_calls src_pos src_uncons keep cs r cps)) /\
    rel src0 b' (snd (fst (r_calls src_pos src_uncons keep cs r cps))) (snd (r_calls src_pos src_uncons keep cs r cps)).
Proof.
  induction cs as [|c cs IH]; intros b r cps HR; [cbn; eauto|]. cbn [b_calls r_calls].
  assert (K : exists b1, b_call src_pos src_uncons grow c b cps = Done (fst (fst (r_call src_pos src_uncons keep c r cps)), b1, snd (r_call src_pos src_uncons keep c r cps)) /\
    rel src0 b1 (snd (fst (r_call src_pos src_uncons keep c r cps))) (snd (r_call src_pos src_uncons keep c r cps))).
  { destruct c as [| | |k]; cbn [b_call r_call].
    - destruct (sim_uncons _ _ _ _ HR) as [b1 [-> K]]. cbn [omap fst snd]. destruct (r_uncons src_pos src_uncons r) as [x r']. cbn [fst snd] in *. eauto.
    - rewrite (sim_position _ _ _ _ HR). cbn [omap fst snd]. eauto.
    - cbn [fst snd]. eexists. unfold b_checkpoint. pose proof HR as (H1 & H2 & H3 & H4 & H5 & H6 & H7 & H8 & H9). rewrite H2. split; [reflexivity|]. unfold rel. do 7 (split; [assumption|]). split; [constructor; auto|assumption].
    - destruct (nth_error cps k) as [cp|] eqn:Hk; [|cbn [fst snd]; eauto]. assert (Hcp : cp <= length (rlog r)).
      { pose proof HR as (H1 & H2 & H3 & H4 & H5 & H6 & H7 & H8 & H9). rewrite Forall_forall in H8. apply H8. eapply nth_error_In; eauto. }
      destruct (sim_reset _ _ _ _ cp HR Hcp) as [b1 [-> K]]. cbn [omap fst snd]. destruct (r_reset src_pos keep cp r) as [x r']. cbn [fst snd] in *. eauto. }
  destruct K as [b1 [-> K]]. cbn [obind]. destruct (r_call src_pos src_uncons keep c r cps) as [[x r1] cps1]. cbn [fst snd] in *.
  destruct (IH _ _ _ K) as [b2 [-> K2]]. cbn [omap]. destruct (r_calls src_pos src_uncons keep cs r1 cps1) as [[xs r2] cps2]. cbn [fst snd] in *. eauto.
Qed.
Lemma rel_new src0 cap : keep = (if cap =? 0 then grow 0 else cap) -> rel src0 (b_new src0 cap) (MkR [] src0 0) [].
Proof.
  intros Hk. unfold rel, b_new. cbn. do 4 (split; [auto|]). split.
  - destruct (Nat.eqb_spec cap 0); [right|left]; auto.
  - split; [lia|]. split; [lia|]. split; [constructor|constructor].
Qed.
End BProofs.
