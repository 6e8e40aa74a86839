(** Derivative, integral and division of dense polynomials over the built-in integers. *)

From Coq Require Import List NArith ZArith Lia Bool Arith.
From Coq Require Import ZifyBool ZifyNat ZifyN.
From Verif Require Import Base Num Spec SpecFacts Laws Terms Dense DenseFacts DenseArith DenseMul DenseCalc DenseDiv.
Import ListNotations.
Local Open Scope Z_scope.

Section Checked.
Variable t : ity.
Notation O := (int_num true t).
Notation L := (checked_lawful t).
Notation dc := (dcoef Z_ring (@ival t)).

Lemma ival_one_int chk : ival (one (int_num chk t)) = 1.
Proof. apply ival_mk_int, in_range_iff. pose proof (imin_max t). lia. Qed.

Lemma dec_ok chk (x : int t) : 1 <= ival x ->
  exists y, sub (int_num chk t) x (one (int_num chk t)) = Ok y /\ ival y = ival x - 1.
Proof.
  intros H. cbn [sub int_num]. rewrite ival_one_int.
  pose proof (ival_ok x) as Hx. apply in_range_iff in Hx. pose proof (imin_max t).
  assert (Hr : in_range t (ival x - 1) = true) by (apply in_range_iff; lia).
  exists (mk_int t (ival x - 1)). split; [apply arith_in_range, Hr|apply ival_mk_int, Hr].
Qed.

Lemma deriv_loop_returns l : forall deg, ival deg = Z.of_nat (S (length l)) ->
  (exists r, deriv_loop O deg l = Ok r) <->
  (forall d, (d < length l)%nat -> in_range t (Z.of_nat (S d) * dc l d) = true).
Proof.
  induction l as [|c l IH]; intros deg Hd; cbn [deriv_loop].
  - split; [simpl; intros; lia|eauto].
  - destruct (dec_ok true deg ltac:(lia)) as (deg' & H1 & H2). rewrite H1. cbn [bind].
    simpl length in *.
    assert (Hd' : ival deg' = Z.of_nat (S (length l))) by lia.
    specialize (IH deg' Hd').
    assert (Hm : (exists p, mul O c deg' = Ok p) <-> in_range t (Z.of_nat (S (length l)) * ival c) = true).
    { simpl. rewrite arith_checked_ex, Hd', Z.mul_comm. reflexivity. }
    split.
    + intros (r & Hr). inv_ok. intros d Hlt. rewrite dcoef_cons. destruct (Nat.eqb_spec d (length l)) as [->|].
      * apply Hm. eauto.
      * apply IH; [eauto|lia].
    + intros H. destruct (proj2 Hm) as (p & Hp).
      { specialize (H (length l) ltac:(lia)). rewrite dcoef_cons, Nat.eqb_refl in H. exact H. }
      rewrite Hp. cbn [bind]. destruct (proj2 IH) as (r & Hr).
      { intros d Hlt. specialize (H d ltac:(lia)). rewrite dcoef_cons in H.
        destruct (Nat.eqb_spec d (length l)); [lia|exact H]. }
      rewrite Hr. cbn [bind]. eauto.
Qed.

Lemma dense_derivative_returns l : vec_ok O l ->
  (exists r, dense_derivative O l = Ok r) <->
  (of_cont O (len (strip O l)) <> None /\ forall d, in_range t (@pderiv Z_ring (dc l) d) = true).
Proof.
  intros Hv. rewrite dense_derivative_unfold.
  pose proof (vec_ok_usize O Z_ring ival L l Hv) as Hu.
  destruct (of_cont O (len (strip O l))) as [deg|] eqn:E; cbn [expect bind].
  2:{ split; [intros (r & Hr); discriminate|]. intros [H _]. congruence. }
  pose proof (lw_cont _ _ _ L _ _ Hu E) as Hdeg. rewrite Z_of_nat_ring in Hdeg.
  assert (R0 : in_range t 0 = true) by (apply in_range_iff; pose proof (imin_max t); lia).
  pose proof (split_last_spec (strip O l)) as Hs. destruct (split_last (strip O l)) as [[x i]|].
  - rewrite (deriv_loop_returns i deg).
    2:{ rewrite Hdeg, Hs. unfold len. rewrite app_length. simpl. lia. }
    assert (Hc : forall d, dc l (S d) = dc i d).
    { intros d. rewrite <- (strip_coef O Z_ring ival L l), Hs, dcoef_snoc. reflexivity. }
    unfold pderiv. cbn [rmul Z_ring]. split.
    + intros H. split; [discriminate|]. intros d. rewrite Z_of_nat_ring, Hc.
      destruct (Nat.lt_ge_cases d (length i)); [auto|]. rewrite dcoef_overflow by lia.
      rewrite Z.mul_0_r. exact R0.
    + intros [_ H] d Hd. specialize (H d). rewrite Z_of_nat_ring, Hc in H. exact H.
  - split; [|eauto]. intros _. split; [discriminate|]. intros d. unfold pderiv. cbn [rmul Z_ring].
    rewrite <- (strip_coef O Z_ring ival L l), Hs, dcoef_nil. simpl r0. rewrite Z.mul_0_r. exact R0.
Qed.

End Checked.

Section AnyMode.
Variable chk : bool.
Variable t : ity.
Notation O := (int_num chk t).
Notation dc := (dcoef Z_ring (@ival t)).

Lemma int_div_ok (a b q : int t) : div O a b = Ok q <-> ival b <> 0 /\ in_range t (Z.quot (ival a) (ival b)) = true
  /\ ival q = Z.quot (ival a) (ival b).
Proof.
  simpl. unfold idiv. destruct (Z.eqb_spec (ival b) 0); [split; [discriminate|lia]|].
  destruct (in_range t (Z.quot (ival a) (ival b))) eqn:E; split; intros H.
  - inv_ok. split; [assumption|]. split; [reflexivity|]. apply ival_mk_int, E.
  - f_equal. apply int_eq. rewrite ival_mk_int by exact E. symmetry. apply H.
  - discriminate.
  - destruct H as (_ & H & _). discriminate.
Qed.

Lemma quot_pos_in_range (a : int t) n : 1 <= n -> in_range t (Z.quot (ival a) n) = true.
Proof.
  intros Hn. pose proof (ival_ok a) as H. apply in_range_iff in H. apply in_range_iff.
  pose proof (Z.quot_le_upper_bound (ival a) n). 
  destruct (Z.le_ge_cases 0 (ival a)).
  - pose proof (Z.quot_pos (ival a) n ltac:(lia) ltac:(lia)).
    assert (Z.quot (ival a) n <= ival a) by (apply Z.quot_le_upper_bound; nia).
    pose proof (imin_max t). lia.
  - assert (E : Z.quot (ival a) n = - Z.quot (- ival a) n) by (rewrite Z.quot_opp_l by lia; lia).
    pose proof (Z.quot_pos (- ival a) n ltac:(lia) ltac:(lia)).
    assert (Z.quot (- ival a) n <= - ival a) by (apply Z.quot_le_upper_bound; nia).
    pose proof (imin_max t). lia.
Qed.

Lemma integ_loop_int l : forall deg, ival deg = Z.of_nat (length l) ->
  exists r, integ_loop O deg l = Ok r /\ length r = length l /\
    forall d, (d < length l)%nat -> dc r d = Z.quot (dc l d) (Z.of_nat (S d)).
Proof.
  induction l as [|c l IH]; intros deg Hd; cbn [integ_loop].
  - exists []. split; [reflexivity|]. split; [reflexivity|]. simpl. lia.
  - simpl length in *.
    assert (R : in_range t (Z.quot (ival c) (ival deg)) = true) by (apply quot_pos_in_range; lia).
    assert (D : div O c deg = Ok (mk_int t (Z.quot (ival c) (ival deg)))).
    { apply int_div_ok. split; [lia|]. split; [exact R|]. apply ival_mk_int, R. }
    rewrite D. cbn [bind].
    destruct (dec_ok t chk deg ltac:(lia)) as (deg' & H1 & H2). rewrite H1. cbn [bind].
    destruct (IH deg' ltac:(lia)) as (r & Hr & Hl & Hc). rewrite Hr. cbn [bind].
    eexists. split; [reflexivity|]. split; [simpl; lia|].
    intros d Hlt. rewrite !dcoef_cons, Hl. destruct (Nat.eqb_spec d (length l)) as [->|].
    + rewrite ival_mk_int by exact R. rewrite Hd. reflexivity.
    + apply Hc. lia.
Qed.

Lemma int_strip_coef l : peq (dc (strip O l)) (dc l).
Proof.
  exact (strip_coef (int_num true t) Z_ring ival (checked_lawful t) l).
Qed.

(** Integration over integers: truncated division by the new exponent; it returns
    whenever the number of coefficients is representable and there is room for one more. *)
Lemma dense_integral_int l : (len (strip O l) + 1 <= n_max_len O)%N -> of_cont O (len (strip O l)) <> None ->
  exists r, dense_integral O l = Ok r /\ dc r 0%nat = 0 /\
    forall d, dc r (S d) = Z.quot (dc l d) (Z.of_nat (S d)).
Proof.
  intros Hc Hn. rewrite dense_integral_unfold.
  destruct (of_cont O (len (strip O l))) as [deg|] eqn:E; [|congruence]. cbn [expect bind].
  assert (Hcap : (n_max_len O <= 2 ^ 63 - 1)%N) by (apply (lw_cap _ _ _ (checked_lawful t))).
  assert (Hu : (len (strip O l) <= USIZE_MAX)%N) by (unfold USIZE_MAX; lia).
  assert (Hdeg : ival deg = Z.of_nat (length (strip O l))).
  { pose proof (iof_usize_spec t _ _ Hu E) as H. rewrite H. unfold len. lia. }
  destruct (integ_loop_int (strip O l) deg Hdeg) as (r & Hr & Hl & Hq). rewrite Hr. cbn [bind].
  unfold vec_grow. unfold len in *. rewrite Hl.
  destruct (N.leb_spec (N.of_nat (length (strip O l)) + 1) (n_max_len O)); [|lia].
  cbn [bind]. eexists. split; [reflexivity|].
  assert (H0 : dc (r ++ [zero O]) 0%nat = 0).
  { rewrite dcoef_snoc. apply ival_mk_int, in_range_iff. pose proof (imin_max t). lia. }
  split; [exact H0|]. intros d. rewrite dcoef_snoc.
  destruct (Nat.lt_ge_cases d (length (strip O l))) as [Hd|Hd].
  - rewrite Hq by exact Hd. rewrite int_strip_coef. reflexivity.
  - rewrite <- (int_strip_coef l d), (dcoef_overflow _ _ (strip O l)) by exact Hd.
    rewrite (dcoef_overflow _ _ r) by lia. reflexivity.
Qed.

End AnyMode.

(** Z is an integral domain, and truncated division finds exact quotients. *)
Lemma Z_domain : domain Z_ring.
Proof. intros x y H. apply Z.mul_eq_0. exact H. Qed.

Lemma int_finds_quot t : finds_quot (int_num true t) Z_ring ival.
Proof.
  intros a b s x Hb H Hx. apply int_div_ok in H. destruct H as (H0 & _ & ->). rewrite Hx.
  cbn [rmul Z_ring]. rewrite Z.quot_mul by exact H0. reflexivity.
Qed.

Lemma Qc_domain : domain Qc_ring.
Proof. intros x y H. apply Qcanon.Qcmult_integral. exact H. Qed.
