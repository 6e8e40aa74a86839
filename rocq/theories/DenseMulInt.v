(** Overflow-checked integers: when dense multiplication returns. *)

From Coq Require Import List NArith ZArith Lia Bool Arith.
From Coq Require Import ZifyBool ZifyNat ZifyN.
From Verif Require Import Base Num Spec SpecFacts Laws Terms Dense DenseFacts DenseArith DenseMul.
Import ListNotations.

(** Coefficientwise absolute value. *)
Definition pabs (p : poly Z_ring) : poly Z_ring := fun d => Z.abs (p d).

Section Ints.
Variable t : ity.
Notation O := (int_num true t).
Notation L := (checked_lawful t).
Notation dc := (dcoef Z_ring (@ival t)).
Local Open Scope Z_scope.

Lemma sumn_nonneg (f : nat -> Z) n : (forall i, (i < n)%nat -> 0 <= f i) -> 0 <= @sumn Z_ring f n.
Proof.
  induction n as [|n IH]; intros H; simpl; [lia|].
  pose proof (IH ltac:(intros; apply H; lia)). pose proof (H n ltac:(lia)). simpl in *. lia.
Qed.

Lemma pmul_abs_nonneg p q d : 0 <= pmul (pabs p) (pabs q) d.
Proof. apply sumn_nonneg. intros i _. unfold pabs. simpl. nia. Qed.

Lemma in_range_abs z m : Z.abs z <= m -> m <= imax t -> imin t = - imax t - 1 \/ 0 <= z -> in_range t z = true.
Proof. intros H1 H2 H3. apply in_range_iff. pose proof (imin_max t). lia. Qed.

Lemma imin_cases : imin t = - imax t - 1 \/ forall a : int t, 0 <= ival a.
Proof.
  unfold imin, imax. destruct (signed t) eqn:E; [left; lia|right]. intros a. pose proof (ival_ok a) as H.
  apply in_range_iff in H. unfold imin in H. rewrite E in H. lia.
Qed.

Lemma dcoef_int_nonneg l d : (forall a : int t, 0 <= ival a) -> 0 <= dc l d.
Proof.
  intros H. induction l as [|c l IH]; [rewrite dcoef_nil; simpl; lia|].
  rewrite dcoef_cons. destruct (Nat.eqb d (length l)); auto.
Qed.

Lemma pabs_dcons c l : peq (pabs (dc (c :: l))) (padd (@pmono Z_ring (Z.abs (ival c)) (length l)) (pabs (dc l))).
Proof.
  intros d. unfold pabs, padd, pmono. rewrite dcoef_cons.
  destruct (Nat.eqb_spec d (length l)) as [->|]; simpl; [|lia].
  rewrite (dcoef_overflow Z_ring (@ival t) l) by lia. simpl. lia.
Qed.

Lemma pmul_pabs_dcons c l (q : poly Z_ring) d :
  pmul (pabs (dc (c :: l))) q d =
  (if Nat.ltb d (length l) then 0 else Z.abs (ival c) * (q (d - length l)%nat)) + (pmul (pabs (dc l)) q d).
Proof.
  rewrite (pmul_ext _ _ _ _ (pabs_dcons c l) (peq_refl q)), pmul_padd_l. unfold padd.
  rewrite pmul_pmono_l. reflexivity.
Qed.

Lemma mul_rows_bounded rhs lhs : forall idx terms,
  (length terms + 1 = idx + length rhs + length lhs)%nat ->
  (forall d, Z.abs (dc terms d) + pmul (pabs (dc rhs)) (pabs (dc lhs)) d <= imax t) ->
  exists r, mul_rows O idx rhs lhs terms = Ok r.
Proof.
  induction rhs as [|c rhs IH]; intros idx terms Hl Hb; cbn [mul_rows]; [eauto|]. simpl in Hl.
  assert (Hb0 : forall d, Z.abs (dc terms d)
     + ((if Nat.ltb d (length rhs) then 0 else Z.abs (ival c) * Z.abs (dc lhs (d - length rhs)%nat))
        + pmul (pabs (dc rhs)) (pabs (dc lhs)) d) <= imax t).
  { intros d. specialize (Hb d). rewrite pmul_pabs_dcons in Hb. exact Hb. }
  destruct (is_zero O c) eqn:Ec.
  - apply IH; [lia|]. intros d. specialize (Hb0 d). destruct (Nat.ltb d (length rhs)); lia.
  - unfold slice_from. destruct (Nat.leb_spec idx (length terms)); [|lia]. cbn [bind].
    set (tail := skipn idx terms).
    assert (Htl : length tail = (length lhs + length rhs)%nat) by (unfold tail; rewrite skipn_length; lia).
    assert (Htd : forall d, (d < length tail)%nat -> dc tail d = dc terms d).
    { intros d Hd. rewrite <- (firstn_skipn idx terms). rewrite dcoef_app. fold tail.
      destruct (Nat.ltb_spec d (length tail)); [reflexivity|lia]. }
    assert (exists r, mul_row O c lhs tail = Ok r) as (r & Hr).
    { unfold mul_row. rewrite zipM_prefix by lia.
      set (t1 := firstn (length lhs) tail).
      assert (H1 : length t1 = length lhs) by (unfold t1; rewrite firstn_length; lia).
      assert (exists r, zipM (fun t0 l => p <- mul O c l ;; add O t0 p) t1 lhs = Ok r) as (r & Hr).
      { apply (zipM_defined Z_ring (@ival t) _
          (fun x y => in_range t (ival c * y) = true /\ in_range t (x + ival c * y) = true)).
        - intros x y. simpl. split.
          + intros (z & Hz). inv_ok. apply arith_checked in E, Hz.
            destruct E as [E1 E2], Hz as [Z1 Z2]. rewrite E2 in Z1. auto.
          + intros (A1 & A2). rewrite arith_in_range by exact A1. cbn [bind]. rewrite ival_mk_int by exact A1.
            rewrite arith_in_range by exact A2. eauto.
        - exact H1.
        - intros d Hd. rewrite H1 in Hd.
          assert (Ht1 : dc t1 d = dc terms (d + length rhs)%nat).
          { rewrite <- Htd by lia. rewrite <- (firstn_skipn (length lhs) tail). fold t1.
            rewrite dcoef_app, skipn_length.
            destruct (Nat.ltb_spec (d + length rhs) (length tail - length lhs)); [lia|]. f_equal. lia. }
          rewrite Ht1. specialize (Hb0 (d + length rhs)%nat).
          destruct (Nat.ltb_spec (d + length rhs) (length rhs)); [lia|].
          replace (d + length rhs - length rhs)%nat with d in Hb0 by lia.
          pose proof (pmul_abs_nonneg (dc rhs) (dc lhs) (d + length rhs)%nat) as Hn.
          rewrite <- Z.abs_mul in Hb0.
          assert (Hz : imin t = - imax t - 1 \/
            (0 <= ival c * dc lhs d /\ 0 <= dc terms (d + length rhs)%nat)).
          { destruct imin_cases as [|Hpos]; [auto|right].
            pose proof (Hpos c). pose proof (dcoef_int_nonneg lhs d Hpos).
            pose proof (dcoef_int_nonneg terms (d + length rhs)%nat Hpos). nia. }
          split; (eapply in_range_abs; [apply Z.le_refl| |]).
          + lia.
          + destruct Hz as [Hz|Hz]; [left; exact Hz|right; lia].
          + lia.
          + destruct Hz as [Hz|Hz]; [left; exact Hz|right; lia]. }
      rewrite Hr. simpl. eauto. }
    rewrite Hr. cbn [bind]. pose proof (mul_row_coef O Z_ring ival L _ _ _ _ (length rhs) Htl Hr) as [Hrl Hrc].
    apply IH.
    + rewrite app_length, firstn_length, Hrl. lia.
    + intros d. specialize (Hb0 d). rewrite dcoef_app, Hrl.
      destruct (Nat.ltb_spec d (length tail)) as [Hd|Hd].
      * rewrite Hrc, Htd by exact Hd. simpl. destruct (Nat.ltb d (length rhs)); lia.
      * rewrite <- (firstn_skipn idx terms), dcoef_app in Hb0. fold tail in Hb0.
        destruct (Nat.ltb_spec d (length tail)); [lia|].
        destruct (Nat.ltb d (length rhs)); lia.
Qed.

(** If all the sums of absolute values of products are representable, multiplication
    returns. *)
Lemma dense_mul_bounded a b : vec_ok O a -> vec_ok O b ->
  (len (strip O a) + len (strip O b) - 1 <= n_max_len O)%N ->
  (strip O a <> [] \/ strip O b <> []) ->
  (forall d, pmul (pabs (dc a)) (pabs (dc b)) d <= imax t) ->
  exists r, dense_mul O a b = Ok r.
Proof.
  intros Ha Hb Hc Hn Hm. unfold dense_mul. rewrite (slice_mul_unfold O Z_ring ival L) by assumption.
  unfold vec_repeat. destruct (N.leb_spec (len (strip O a) + len (strip O b) - 1) (n_max_len O)); [|lia].
  cbn [bind]. apply mul_rows_bounded.
  - rewrite repeat_length. unfold len.
    destruct (strip O a), (strip O b); simpl length; try lia. destruct Hn; congruence.
  - intros d. rewrite (dcoef_all_zero O Z_ring ival L) by apply (all_zero_repeat O Z_ring ival L).
    change (Z.abs (@r0 Z_ring)) with 0. rewrite Z.add_0_l.
    etransitivity; [|apply (Hm d)]. apply Z.eq_le_incl. rewrite (pmul_comm (pabs (dc a))).
    apply (@pmul_ext Z_ring); intros e; unfold pabs; rewrite (strip_coef O Z_ring ival L); reflexivity.
Qed.

(** For non-negative coefficients: exactly when every coefficient of the product is
    representable. *)
Lemma dense_mul_nonneg a b : vec_ok O a -> vec_ok O b ->
  (len (strip O a) + len (strip O b) - 1 <= n_max_len O)%N ->
  (strip O a <> [] \/ strip O b <> []) ->
  (forall d, 0 <= dc a d) -> (forall d, 0 <= dc b d) ->
  (exists r, dense_mul O a b = Ok r) <-> (forall d, in_range t (pmul (dc a) (dc b) d) = true).
Proof.
  intros Ha Hb Hc Hn Pa Pb. split.
  - intros (r & Hr) d. rewrite <- (dense_mul_coef O Z_ring ival L a b r Ha Hb Hr d).
    apply (fits_coef O Z_ring ival L _ (checked_fits t)).
  - intros H. apply dense_mul_bounded; auto. intros d. specialize (H d). apply in_range_iff in H.
    etransitivity; [|apply H]. apply Z.eq_le_incl.
    apply (@pmul_ext Z_ring); intros e; unfold pabs; apply Z.abs_eq; auto.
Qed.

End Ints.
