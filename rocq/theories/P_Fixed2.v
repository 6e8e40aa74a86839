(** Properties C12-C15, C17, C51, C52, C54 of the fixed-shape polynomials. *)

From Coq Require Import List NArith ZArith Lia Bool Arith Sorted.
From Coq Require Import ZifyBool ZifyNat ZifyN.
From Verif Require Import Base Num Spec SpecFacts Laws Terms Dense.
From Verif Require Import DenseFacts DenseArith DenseCalc DenseShift DenseMut DenseCalcInt Wrap.
From Verif Require Import Sparse SparseFacts SparseArith SparseCalc Mono Bino Trino ArrPoly FixedFacts.
From Verif Require Import P_Dense1 P_Dense2 P_Sparse1 P_Sparse2 P_Fixed1.
Import ListNotations.

(** ** C12 *)

Theorem C12_fixed_eval : forall T (O : num T) R den, lawful O R den -> forall x r,
  (forall m, (mdeg m < 2 ^ 32)%N -> mono_eval O m x = Ok r -> is_value (mpoly R den m) (den x) (den r)) /\
  (forall b, bino_eval O b x = Ok r -> is_value (bpoly R den b) (den x) (den r)) /\
  (forall b, trino_eval O b x = Ok r -> is_value (tpoly R den b) (den x) (den r)) /\
  (forall a, arr_eval O a x = Ok r -> is_value (dcoef R den a) (den x) (den r)).
Proof.
  intros T O R den L x r. split; [|split; [|split]].
  - intros m. apply (mono_eval_value O R den L). - intros b. apply (bino_eval_value O R den L).
  - intros b. apply (trino_eval_value O R den L). - intros a. apply (dense_eval_value O R den L).
Qed.

Theorem C12_fixed_eval_returns : forall T (O : num T), total_ops O -> forall x,
  (forall b, exists r, bino_eval O b x = Ok r) /\ (forall b, exists r, trino_eval O b x = Ok r).
Proof.
  intros T O H x. split.
  - intros b. unfold bino_eval. destruct (to_mul _ H x (bc0 b)) as (p & ->). cbn [bind]. apply (to_add _ H).
  - intros b. unfold trino_eval. destruct (to_mul _ H (tc0 b) x) as (p & ->). cbn [bind].
    destruct (to_add _ H p (tc1 b)) as (s & ->). cbn [bind]. destruct (to_mul _ H x s) as (q & ->). cbn [bind]. apply (to_add _ H).
Qed.

Example C12_fixed_case :
  rmap ival (mono_eval (int_num true I32) (imono I32 (-5) 4) (mk_int I32 3)) = Ok (-405)%Z
  /\ rmap ival (bino_eval (int_num true I32) (ibino I32 (-5) 4) (mk_int I32 3)) = Ok (-11)%Z
  /\ rmap ival (trino_eval (int_num true I32) (itrino I32 2 (-5) 4) (mk_int I32 3)) = Ok 7%Z
  /\ rmap ival (arr_eval (int_num true I32) (map (mk_int I32) [1; 0; 2; 7]%Z) (mk_int I32 3)) = Ok 40%Z.
Proof. vm_compute. repeat split. Qed.

(** ** C13 *)

Theorem C13_fixed_derivative : forall T (O : num T) R den, lawful O R den ->
  (forall m r, (mdeg m <= USIZE_MAX)%N -> mono_derivative O m = Ok r -> peq (mpoly R den r) (pderiv (mpoly R den m))) /\
  (forall b, peq (bpoly R den (bino_derivative O b)) (pderiv (bpoly R den b))) /\
  (forall b r, trino_derivative O b = Ok r -> peq (tpoly R den r) (pderiv (tpoly R den b))) /\
  (forall a r, (len a <= USIZE_MAX)%N -> arr_derivative O a = Ok r ->
     length r = length a /\ peq (dcoef R den r) (pderiv (dcoef R den a))).
Proof.
  intros T O R den L. split; [|split; [|split]].
  - intros m r. apply (mono_derivative_spec O R den L). - intros b. apply (bino_derivative_spec O R den L).
  - intros b r. apply (trino_derivative_spec O R den L). - intros a r. apply (arr_derivative_spec O R den L).
Qed.

(** When they return, with overflow-checked integers (isize and usize do not implement
    TryFromUsizeExact, so the methods do not exist for them). *)
Theorem C13_fixed_derivative_int_returns : forall t, t <> Isize -> t <> Usize ->
  (forall m : mono (int t), (mdeg m <= USIZE_MAX)%N -> ival (mcoef m) <> 0%Z -> (0 < mdeg m)%N ->
     (exists r, mono_derivative (int_num true t) m = Ok r) <->
     (of_exact (int_num true t) (mdeg m) <> None /\ in_range t (Z.of_N (mdeg m) * ival (mcoef m)) = true)) /\
  (forall b : trino (int t), (exists r, trino_derivative (int_num true t) b = Ok r) <-> in_range t (2 * ival (tc0 b)) = true).
Proof.
  intros t Ht1 Ht2. split.
  - intros m Hu Hc Hd. unfold mono_derivative, mono_degree. cbn [is_zero int_num].
    destruct (Z.eqb_spec (ival (mcoef m)) 0); [contradiction|]. destruct (mdeg m) as [|p] eqn:Ep; [lia|].
    unfold expect. destruct (of_exact (int_num true t) (N.pos p)) as [n'|] eqn:En; cbn [bind].
    + cbn [of_exact int_num] in En. apply iof_usize_spec in En; [|lia].
      rewrite usub_le by lia. cbn [mul int_num]. rewrite En, Z.mul_comm. split.
      * intros (r & H). inv_ok. split; [discriminate|]. apply arith_checked in E. apply E.
      * intros [_ H]. rewrite arith_in_range by exact H. cbn [bind]. eauto.
    + split; [intros (r & H); discriminate|]. intros [H _]. congruence.
  - intros b. unfold trino_derivative, expect. destruct (of_exact (int_num true t) 2) as [n'|] eqn:En; cbn [bind].
    + cbn [of_exact int_num] in En. apply iof_usize_spec in En; [|unfold USIZE_MAX; lia].
      cbn [mul int_num]. rewrite En, Z.mul_comm. change (Z.of_N 2) with 2%Z. split.
      * intros (r & H). inv_ok. apply arith_checked in E. apply E.
      * intros H. rewrite arith_in_range by exact H. cbn [bind]. eauto.
    + destruct t; try contradiction; vm_compute in En; discriminate.
Qed.

Example C13_fixed_case :
  rmap mread (mono_derivative (int_num true I8) (imono I8 (-5) 4)) = Ok ((-20)%Z, 3%N)
  /\ rmap tread (trino_derivative (int_num true I8) (itrino I8 2 (-5) 4)) = Ok [0; 4; -5]%Z
  /\ bread (bino_derivative (int_num true I8) (ibino I8 (-5) 4)) = [0; -5]%Z
  /\ rmap (map ival) (arr_derivative (int_num true I8) (map (mk_int I8) [1; 0; 2; 7]%Z)) = Ok [0; 3; 0; 2]%Z
  /\ mono_derivative (int_num true I8) (imono I8 1 200) = Panic PExpect.
Proof. vm_compute. repeat split. Qed.

(** ** C14 *)

(** [q] is the antiderivative of [p] with constant 0, with respect to the type's own
    division: the coefficient of x^(d+1) is p_d / (d+1), or 0 where p_d = 0. *)
Definition antiderivative {T} (O : num T) (R : comring) (den : T -> car R) (p q : poly R) : Prop :=
  q 0%nat = r0 /\
  forall d, (p d = r0 /\ q (S d) = r0) \/
            exists t n v, den t = p d /\ den n = of_nat (S d) /\ div O t n = Ok v /\ q (S d) = den v.

(** Binomials and trinomials copy the constant term as the coefficient of x, without
    dividing it by 1. *)
Definition div_one {T} (O : num T) : Prop := forall a, div O a (one O) = Ok a.

Theorem C14_fixed_integral : forall T (O : num T) R den, lawful O R den ->
  (forall m r, (mdeg m < USIZE_MAX)%N -> mono_integral O m = Ok r -> swf r /\ antiderivative O R den (mpoly R den m) (scoef R den r)) /\
  (div_one O -> forall b r, bino_integral O b = Ok r -> antiderivative O R den (bpoly R den b) (dcoef R den r)) /\
  (div_one O -> forall b r, trino_integral O b = Ok r -> antiderivative O R den (tpoly R den b) (dcoef R den r)) /\
  (forall a r, (len a <= USIZE_MAX)%N -> arr_integral O a = Ok r -> antiderivative O R den (dcoef R den a) (dcoef R den r)).
Proof.
  intros T O R den L.
  assert (G : div_one O -> forall p q c, p 0%nat = den c -> integral_of' O R den p q -> antiderivative O R den p q).
  { intros D p q c Hc (A & B & C). split; [exact A|]. intros [|d]; [|apply C]. right. exists c, (one O), c.
    split; [auto|]. split; [rewrite (lw_one _ _ _ L); cbn [of_nat]; symmetry; apply radd_r0|]. split; [apply D|congruence]. }
  split; [|split; [|split]].
  - intros m r. apply (mono_integral_spec O R den L).
  - intros D b r H. apply (G D _ _ (bc1 b)); [exact (bpoly_at R den b 0)|apply (bino_integral_spec O R den L), H].
  - intros D b r H. apply (G D _ _ (tc2 b)); [exact (tpoly_at R den b 0)|apply (trino_integral_spec O R den L), H].
  - intros a r. apply (arr_integral_spec O R den L).
Qed.

(** With exact division the derivative of the integral is the original polynomial. *)
Theorem C14_fixed_integral_exact : forall T (O : num T) R den, lawful O R den -> exact_div O R den -> char0 R ->
  (forall m r, (mdeg m < USIZE_MAX)%N -> mono_integral O m = Ok r ->
     scoef R den r 0%nat = r0 /\ peq (pderiv (scoef R den r)) (mpoly R den m)) /\
  (forall b r, bino_integral O b = Ok r -> dcoef R den r 0%nat = r0 /\ peq (pderiv (dcoef R den r)) (bpoly R den b)) /\
  (forall b r, trino_integral O b = Ok r -> dcoef R den r 0%nat = r0 /\ peq (pderiv (dcoef R den r)) (tpoly R den b)) /\
  (forall a r, (len a <= USIZE_MAX)%N -> arr_integral O a = Ok r ->
     dcoef R den r 0%nat = r0 /\ peq (pderiv (dcoef R den r)) (dcoef R den a)).
Proof.
  intros T O R den L X C0. pose proof (rmul_comm R) as MC.
  assert (Q : forall t n v d, den n = of_nat (S d) -> div O t n = Ok v -> rmul (of_nat (S d)) (den v) = den t).
  { intros t n v d Hn Hv. destruct (X t n) as (c & Hc & E).
    - destruct (is_zero O n) eqn:Ez; [|reflexivity]. apply (is_zero_den O R den L) in Ez. exfalso. apply (C0 d). congruence.
    - rewrite Hv in Hc. inv_ok. rewrite <- Hn, MC. exact E. }
  assert (G : forall p q, antiderivative O R den p q -> q 0%nat = r0 /\ peq (pderiv q) p).
  { intros p q [A B]. split; [exact A|]. intros d. unfold pderiv. destruct (B d) as [[P0 ->]|(t & n & v & E1 & E2 & E3 & ->)].
    - rewrite P0, MC. apply rmul_0_l. - rewrite (Q t n v d E2 E3). exact E1. }
  assert (G' : forall p q, integral_of' O R den p q -> q 0%nat = r0 /\ peq (pderiv q) p).
  { intros p q (A & B & C). split; [exact A|]. intros [|d]; unfold pderiv.
    - rewrite B. cbn [of_nat]. rewrite radd_r0. apply rmul_1_l.
    - destruct (C d) as [[P0 ->]|(t & n & v & E1 & E2 & E3 & ->)].
      + rewrite P0, MC. apply rmul_0_l. + rewrite (Q t n v (S d) E2 E3). exact E1. }
  split; [|split; [|split]].
  - intros m r Hu H. apply G. apply (mono_integral_spec O R den L) in H; [|exact Hu]. apply H.
  - intros b r H. apply G', (bino_integral_spec O R den L), H.
  - intros b r H. apply G', (trino_integral_spec O R den L), H.
  - intros a r Hu H. apply G. apply (arr_integral_spec O R den L) in H; [exact H|exact Hu].
Qed.

(** Integers, both build modes: truncating quotients; binomials and trinomials never panic. *)
Theorem C14_fixed_integral_int : forall chk t, t <> Isize -> t <> Usize ->
  (forall b : bino (int t), exists r, bino_integral (int_num chk t) b = Ok r /\ dcoef Z_ring ival r 0%nat = 0%Z /\
     forall d, dcoef Z_ring ival r (S d) = Z.quot (bpoly Z_ring ival b d) (Z.of_nat (S d))) /\
  (forall b : trino (int t), exists r, trino_integral (int_num chk t) b = Ok r /\ dcoef Z_ring ival r 0%nat = 0%Z /\
     forall d, dcoef Z_ring ival r (S d) = Z.quot (tpoly Z_ring ival b d) (Z.of_nat (S d))).
Proof.
  intros chk t Ht1 Ht2.
  assert (OC : forall n, (1 <= n <= 3)%N -> exists v, iof_usize t n = Some v /\ ival v = Z.of_N n).
  { intros n Hn. destruct (iof_usize t n) as [v|] eqn:E.
    - exists v. split; [reflexivity|]. apply iof_usize_spec in E; [exact E|unfold USIZE_MAX; lia].
    - assert (n = 1 \/ n = 2 \/ n = 3)%N as [->|[->| ->]] by lia; destruct t; try contradiction; vm_compute in E; discriminate. }
  assert (DV : forall (a n : int t), (1 <= ival n)%Z -> exists v, idiv t a n = Ok v /\ ival v = Z.quot (ival a) (ival n)).
  { intros a n Hn. assert (R : in_range t (Z.quot (ival a) (ival n)) = true) by (apply quot_pos_in_range; exact Hn).
    exists (mk_int t (Z.quot (ival a) (ival n))). split; [|apply ival_mk_int, R].
    apply (int_div_ok true t). split; [lia|]. split; [exact R|apply ival_mk_int, R]. }
  assert (DN : forall l r, dense_new (int_num chk t) l = Ok r -> peq (dcoef Z_ring ival r) (dcoef Z_ring ival l)).
  { intros l r H. rewrite dense_new_ok in H. inv_ok. apply (int_strip_coef chk t). }
  assert (Z0 : ival (mk_int t 0) = 0%Z) by (apply ival_mk_int; destruct t; reflexivity).
  split; intros b.
  - unfold bino_integral. cbn [of_cont int_num div]. destruct (OC 2%N ltac:(lia)) as (two & -> & E2). cbn [expect bind].
    destruct (DV (bc0 b) two ltac:(lia)) as (v & -> & Ev). cbn [bind].
    match goal with |- exists r, dense_new ?O ?l = _ /\ _ => destruct (dense_new O l) as [r| |] eqn:Hr; rewrite dense_new_ok in Hr; try discriminate; exists r end. rewrite <- dense_new_ok in Hr.
    split; [reflexivity|]. apply DN in Hr. split; [rewrite Hr, !dcoef_cons; exact Z0|]. intros d. rewrite Hr, bpoly_at, !dcoef_cons, dcoef_nil.
    destruct d as [|[|d]]; cbn [length Nat.eqb].
    + rewrite Z.quot_1_r. reflexivity. + rewrite Ev, E2. reflexivity. + cbn [r0 Z_ring]. rewrite Z.quot_0_l by lia. reflexivity.
  - unfold trino_integral. cbn [of_exact int_num div]. destruct (OC 3%N ltac:(lia)) as (three & -> & E3). cbn [expect bind].
    destruct (DV (tc0 b) three ltac:(lia)) as (v & -> & Ev). cbn [bind].
    destruct (OC 2%N ltac:(lia)) as (two & -> & E2). cbn [expect bind].
    destruct (DV (tc1 b) two ltac:(lia)) as (w & -> & Ew). cbn [bind].
    match goal with |- exists r, dense_new ?O ?l = _ /\ _ => destruct (dense_new O l) as [r| |] eqn:Hr; rewrite dense_new_ok in Hr; try discriminate; exists r end. rewrite <- dense_new_ok in Hr.
    split; [reflexivity|]. apply DN in Hr. split; [rewrite Hr, !dcoef_cons; exact Z0|]. intros d. rewrite Hr, tpoly_at, !dcoef_cons, dcoef_nil.
    destruct d as [|[|[|d]]]; cbn [length Nat.eqb].
    + rewrite Z.quot_1_r. reflexivity. + rewrite Ew, E2. reflexivity. + rewrite Ev, E3. reflexivity.
    + cbn [r0 Z_ring]. rewrite Z.quot_0_l by lia. reflexivity.
Qed.

Example C14_fixed_case :
  rmap sread (mono_integral (int_num true I8) (imono I8 (-11) 4)) = Ok [(5%N, (-2)%Z)]
  /\ rmap (map ival) (bino_integral (int_num true I8) (ibino I8 7 (-5))) = Ok [3; -5; 0]%Z
  /\ rmap (map ival) (trino_integral (int_num true I8) (itrino I8 2 (-5) 4)) = Ok [-2; 4; 0]%Z
  /\ rmap (map ival) (arr_integral (int_num true I8) (map (mk_int I8) [8; 0; 2; 7]%Z)) = Ok [2; 0; 1; 7; 0]%Z.
Proof. vm_compute. repeat split. Qed.

(** ** C15, C17 *)

Theorem C15_mono_shift : forall T (O : num T) R den, lawful O R den -> forall fuel (left : bool) m k r,
  i32_shift k -> (mdeg m <= USIZE_MAX)%N ->
  (n_chk O = true \/ (mdeg m + Z.to_N (if left then k else - k) <= USIZE_MAX)%N) ->
  mono_shift O (S (S fuel)) left m k = Ok r -> peq (mpoly R den r) (pshift left k (mpoly R den m)).
Proof. intros T O R den L fuel left m k r. apply (mono_shift_spec O R den L). Qed.

Theorem C15_mono_shift_returns : forall T (O : num T) fuel (left : bool) m k, i32_shift k ->
  (mdeg m + Z.to_N (if left then k else - k) <= USIZE_MAX)%N -> exists r, mono_shift O (S (S fuel)) left m k = Ok r.
Proof.
  intros T O fuel left m k Hk Hd.
  assert (G : forall f (l : bool) j, (0 <= j)%Z -> (mdeg m + Z.to_N (if l then j else 0) <= USIZE_MAX)%N ->
     exists r, mono_shift O (S f) l m j = Ok r).
  { intros f l j Hj Hm. cbn [mono_shift]. destruct (Z.ltb_spec j 0); [lia|]. destruct l.
    - rewrite uadd_small by exact Hm. simpl. eauto.
    - destruct (N.ltb_spec (mdeg m) (Z.to_N j)); [eauto|]. rewrite usub_le by lia. simpl. eauto. }
  destruct (Z.ltb_spec k 0) as [Hn|Hp].
  - cbn [mono_shift]. destruct (Z.ltb_spec k 0); [|lia]. unfold neg_i32. unfold i32_shift in Hk.
    destruct (Z.eqb_spec k I32_MIN); [lia|]. cbn [bind]. apply G; [lia|]. destruct left; cbn [negb]; [|exact Hd].
    change (Z.to_N 0) with 0%N. lia.
  - apply G; [lia|]. destruct left; [exact Hd|]. change (Z.to_N 0) with 0%N. lia.
Qed.

Theorem C17_mono_shift_min : forall T (O : num T) fuel (left : bool) m,
  (n_chk O = true -> mono_shift O (S fuel) left m I32_MIN = Panic POverflow) /\
  (n_chk O = false -> mono_shift O fuel left m I32_MIN = Fuel).
Proof.
  intros T O fuel left m. split.
  - intros H. apply mono_shift_min_checked, H. - intros H. apply mono_shift_min_unchecked, H.
Qed.

Example C15_mono_case :
  rmap mread (mono_shift (int_num true I8) 2 true (imono I8 5 4) 3) = Ok (5%Z, 7%N)
  /\ rmap mread (mono_shift (int_num true I8) 2 true (imono I8 5 4) (-3)) = Ok (5%Z, 1%N)
  /\ rmap mread (mono_shift (int_num true I8) 2 false (imono I8 5 4) 5) = Ok (0%Z, 0%N).
Proof. vm_compute. repeat split. Qed.

(** ** C51 *)

(** What Monomial::eval and Monomial::pow compute for exponents of any size. *)
Theorem C51_mono_truncates : forall t,
  (forall (m : mono (int t)) x r, mono_eval (int_num true t) m x = Ok r ->
     ival r = (ival (mcoef m) * ival x ^ Z.of_N (mdeg m mod 2 ^ 32))%Z) /\
  (forall (m : mono (int t)) e r, mono_pow (int_num true t) m e = Ok r ->
     ival (mcoef r) = (ival (mcoef m) ^ Z.of_N (e mod 2 ^ 32))%Z).
Proof.
  intros t.
  assert (P : forall (x : int t) e v, iupow true t x e = Ok v -> ival v = (ival x ^ Z.of_N (e mod 2 ^ 32))%Z).
  { intros x e v H. rewrite <- (N_nat_Z (e mod 2 ^ 32)), <- Z_rpow_ring.
    apply (lw_upow _ _ _ (checked_lawful t)); [apply N.mod_upper_bound; discriminate|].
    cbn [upow int_num]. unfold iupow in *. rewrite N.mod_mod by discriminate. exact H. }
  split.
  - intros m x r H. unfold mono_eval in H. inv_ok. cbn [upow mul int_num] in *. apply P in E. apply arith_checked in H.
    destruct H as [_ H]. rewrite H, E. reflexivity.
  - intros m e r H. unfold mono_pow in H. inv_ok. cbn [upow int_num] in *. apply P in E. exact E.
Qed.

Theorem C51_mono_refuted : forall chk t,
  (exists (m : mono (int t)) x r, (mdeg m <= USIZE_MAX)%N /\ mono_eval (int_num chk t) m x = Ok r /\ ival r = 1%Z /\
     @is_value Z_ring (mpoly Z_ring ival m) (ival x) 0%Z) /\
  (exists (m : mono (int t)) e r, (e <= USIZE_MAX)%N /\ mono_pow (int_num chk t) m e = Ok r /\
     ~ peq (mpoly Z_ring ival r) (ppow (mpoly Z_ring ival m) (N.to_nat e))).
Proof.
  intros chk t.
  assert (Z0 : ival (mk_int t 0) = 0%Z) by (apply ival_mk_int; destruct t; reflexivity).
  assert (Z1 : ival (mk_int t 1) = 1%Z) by (apply ival_mk_int; destruct t; reflexivity).
  split.
  - exists (imono t 1 (2 ^ 32)), (mk_int t 0), (mk_int t 1). split; [vm_compute; discriminate|].
    split; [destruct chk, t; vm_compute; reflexivity|]. split; [exact Z1|].
    assert (E : 0%Z = @rmul Z_ring (ival (mk_int t 1)) (@rpow Z_ring 0%Z (N.to_nat (2 ^ 32)))).
    { rewrite Z_rpow_ring, Z.pow_0_l by lia. rewrite Z1. reflexivity. }
    rewrite Z0. pattern 0%Z at 2. rewrite E. apply is_value_pmono.
  - exists (imono t 0 0), (2 ^ 32)%N, (imono t 1 0). split; [vm_compute; discriminate|].
    split; [destruct chk, t; vm_compute; reflexivity|]. intros H. specialize (H 0%nat). unfold mpoly in H.
    assert (P0 : @rpow Z_ring 0%Z (N.to_nat (2 ^ 32)) = 0%Z) by (rewrite Z_rpow_ring, Z.pow_0_l by lia; reflexivity).
    rewrite (ppow_pmono (ival (mcoef (imono t 0 0)) : car Z_ring)) in H. cbn [imono mcoef mdeg] in H.
    change (N.to_nat 0) with 0%nat in H. rewrite Nat.mul_0_l, !pmono_at, Z0, Z1 in H. rewrite P0 in H. clear P0. discriminate H.
Qed.

(** ** C52 *)

Theorem C52_mono_checked : forall T (O : num T), n_chk O = true ->
  (forall a b r, (USIZE_MAX < mdeg a + mdeg b)%N -> mono_mul O a b <> Ok r) /\
  (forall m e r, (USIZE_MAX < mdeg m * e)%N -> mono_pow O m e <> Ok r) /\
  (forall fuel m n r, (0 <= n)%Z -> (USIZE_MAX < mdeg m + Z.to_N n)%N -> mono_shift O (S fuel) true m n <> Ok r).
Proof.
  intros T O H. split; [|split].
  - intros a b r Hd E. unfold mono_mul in E. inv_ok. unfold uadd in E1. rewrite H in E1. destruct (N.leb_spec (mdeg a + mdeg b) USIZE_MAX); [lia|discriminate].
  - intros m e r Hd E. unfold mono_pow in E. inv_ok. unfold umul in E1. rewrite H in E1. destruct (N.leb_spec (mdeg m * e) USIZE_MAX); [lia|discriminate].
  - intros fuel m n r Hn Hd E. cbn [mono_shift] in E. destruct (Z.ltb_spec n 0); [lia|]. inv_ok.
    unfold uadd in E0. rewrite H in E0. destruct (N.leb_spec (mdeg m + Z.to_N n) USIZE_MAX); [lia|discriminate].
Qed.

(** Without overflow checks: x^usize::MAX * x = 1, x^(2^63) squared = 1, x^usize::MAX << 1 = 1. *)
Theorem C52_mono_wraps_refuted : forall t,
  (exists (a b r : mono (int t)), (mdeg a <= USIZE_MAX)%N /\ (mdeg b <= USIZE_MAX)%N /\ mono_mul (int_num false t) a b = Ok r /\
     ~ peq (mpoly Z_ring ival r) (pmul (mpoly Z_ring ival a) (mpoly Z_ring ival b))) /\
  (exists (a r : mono (int t)) e, (mdeg a <= USIZE_MAX)%N /\ (e < 2 ^ 32)%N /\ mono_pow (int_num false t) a e = Ok r /\
     ~ peq (mpoly Z_ring ival r) (ppow (mpoly Z_ring ival a) (N.to_nat e))) /\
  (exists (a r : mono (int t)), (mdeg a <= USIZE_MAX)%N /\ mono_shift (int_num false t) 2 true a 1 = Ok r /\
     ~ peq (mpoly Z_ring ival r) (pshift true 1 (mpoly Z_ring ival a))).
Proof.
  intros t.
  assert (Z1 : ival (mk_int t 1) = 1%Z) by (apply ival_mk_int; destruct t; reflexivity).
  assert (K : forall c n, (n <> 0)%nat -> @pmono Z_ring c n 0%nat = 0%Z) by (intros c n Hn; apply (@pmono_off Z_ring); lia).
  split; [|split].
  - exists (imono t 1 USIZE_MAX), (imono t 1 1), (imono t 1 0). split; [reflexivity|]. split; [discriminate|].
    split; [destruct t; vm_compute; reflexivity|]. intros H. specialize (H 0%nat). unfold mpoly, imono in H. cbn [mcoef mdeg] in H.
    rewrite (@pmul_pmono_pmono Z_ring), (K _ (N.to_nat USIZE_MAX + N.to_nat 1)%nat) in H by lia. change (N.to_nat 0) with 0%nat in H. rewrite (@pmono_at Z_ring), Z1 in H. discriminate.
  - exists (imono t 1 (2 ^ 63)), (imono t 1 0), 2%N. split; [discriminate|]. split; [reflexivity|].
    split; [destruct t; vm_compute; reflexivity|]. intros H. specialize (H 0%nat). unfold mpoly, imono in H. cbn [mcoef mdeg] in H.
    rewrite (@ppow_pmono Z_ring), (K _ (N.to_nat (2 ^ 63) * N.to_nat 2)%nat) in H by lia. change (N.to_nat 0) with 0%nat in H. rewrite (@pmono_at Z_ring), Z1 in H. discriminate.
  - exists (imono t 1 USIZE_MAX), (imono t 1 0). split; [reflexivity|].
    split; [destruct t; vm_compute; reflexivity|]. intros H. specialize (H 0%nat). unfold mpoly, imono in H. cbn [mcoef mdeg] in H.
    change (N.to_nat 0) with 0%nat in H. rewrite (@pmono_at Z_ring), Z1 in H. discriminate.
Qed.

(** ** C54 *)

Theorem C54_array_listing_partial : forall T (O : num T) R den, lawful O R den -> forall a, length a = 2%nat ->
  exists ts, arr_terms O a = Ok ts /\ lists_terms R den (dcoef R den a) ts.
Proof.
  intros T O R den L a H. destruct (enum_terms_listing O R den L 1 a 0) as (ts & A & B & _).
  - right. rewrite H. reflexivity.
  - exists ts. split; [exact A|]. apply (listing_lists O R den L), B.
Qed.

Lemma enum_first {T} (O : num T) R den (L : lawful O R den) l : forall i ts, ~ peq (dcoef R den l) pzero ->
  enum_terms O 1 i l = Ok ts ->
  exists c k j ts', ts = (c, k) :: ts' /\ usub (n_chk O) 1 (N.of_nat j) = Ok k /\ (i <= j < i + length l)%nat /\
    is_degree (dcoef R den l) (Some (length l - 1 - (j - i))%nat).
Proof.
  induction l as [|c l IH]; intros i ts Hz H.
  - exfalso. apply Hz. intros d. apply dcoef_nil.
  - cbn [enum_terms] in H. destruct (is_zero O c) eqn:Ec.
    + assert (Z : peq (dcoef R den (c :: l)) (dcoef R den l)).
      { intros d. rewrite dcoef_cons. destruct (Nat.eqb_spec d (length l)) as [->|]; [|reflexivity].
        rewrite dcoef_overflow by lia. apply (is_zero_den O R den L), Ec. }
      destruct (IH (S i) ts) as (c' & k & j & ts' & A & B & C & D).
      * intros Z'. apply Hz. eapply peq_trans; eauto. * exact H.
      * exists c', k, j, ts'. split; [exact A|]. split; [exact B|]. cbn [length]. split; [lia|].
        replace (S (length l) - 1 - (j - i))%nat with (length l - 1 - (j - S i))%nat by lia.
        destruct D as [D1 D2]. split; [rewrite Z; exact D1|]. intros d Hd. rewrite Z. apply D2, Hd.
    + inv_ok. exists c, v, i, v0. split; [reflexivity|]. split; [exact E|]. cbn [length]. split; [lia|].
      rewrite Nat.sub_diag, Nat.sub_0_r. replace (S (length l) - 1)%nat with (length l) by lia. split.
      * rewrite dcoef_cons, Nat.eqb_refl. apply (is_zero_false_den O R den L), Ec.
      * intros d Hd. apply dcoef_overflow. simpl. lia.
Qed.

(** For every SIZE other than 2 the listing is wrong for every non-zero polynomial. *)
Theorem C54_array_listing_wrong : forall T (O : num T) R den, lawful O R den -> forall a, length a <> 2%nat ->
  (len a <= USIZE_MAX)%N -> ~ peq (dcoef R den a) pzero ->
  forall ts, arr_terms O a = Ok ts -> ~ lists_terms R den (dcoef R den a) ts.
Proof.
  intros T O R den L a Ha Hu Hz ts H [HS HL]. unfold arr_terms in H.
  destruct (enum_first O R den L a 0 ts Hz H) as (c & k & j & ts' & -> & B & C & D).
  destruct (proj1 (HL c k) (or_introl eq_refl)) as [Hc Hk].
  destruct D as [D1 D2]. rewrite Nat.sub_0_r in *.
  destruct (Nat.eq_dec (N.to_nat k) (length a - 1 - j)) as [E|E].
  - unfold usub in B. unfold len in Hu. unfold USIZE_MAX, USIZE_MOD in *. destruct (N.leb_spec (N.of_nat j) 1); [inv_ok; lia|].
    destruct (n_chk O); [discriminate|]. inv_ok. lia.
  - (* the leading coefficient is not listed *)
    destruct (coef_rep O R den L a (length a - 1 - j)) as (x & Hx).
    assert (I : In (x, N.of_nat (length a - 1 - j)) ((c, k) :: ts')).
    { apply HL. rewrite Nat2N.id. rewrite Hx. auto. }
    assert (K : (N.to_nat k < length a - 1 - j)%nat).
    { destruct (Nat.lt_ge_cases (N.to_nat k) (length a - 1 - j)); [assumption|]. exfalso. apply Hc. rewrite <- Hk. apply D2. lia. }
    destruct I as [I|I]; [injection I as _ I; lia|].
    apply StronglySorted_inv in HS. destruct HS as [_ HS]. rewrite Forall_forall in HS. apply HS in I. simpl in I. lia.
Qed.

Theorem C54_array_listing_refuted : forall chk t n, n <> 2%nat -> (1 <= n)%nat -> (N.of_nat n <= USIZE_MAX)%N ->
  exists a : list (int t), length a = n /\ forall ts, arr_terms (int_num chk t) a = Ok ts -> ~ lists_terms Z_ring ival (dcoef Z_ring ival a) ts.
Proof.
  intros chk t n H2 H1 Hu. exists (repeat (mk_int t 0) (n - 1) ++ [mk_int t 1]).
  assert (Hl : length (repeat (mk_int t 0) (n - 1) ++ [mk_int t 1]) = n) by (rewrite app_length, repeat_length; simpl; lia).
  split; [exact Hl|].
  assert (Hz : forall R (den : int t -> car R), den (mk_int t 1) <> r0 -> ~ peq (dcoef R den (repeat (mk_int t 0) (n - 1) ++ [mk_int t 1])) pzero).
  { intros R den Hd H. specialize (H 0%nat). rewrite dcoef_snoc in H. apply Hd, H. }
  assert (Z1 : ival (mk_int t 1) = 1%Z) by (apply ival_mk_int; destruct t; reflexivity).
  assert (N1 : ival (mk_int t 1) <> 0%Z) by lia.
  destruct chk; intros ts H HL.
  - apply (C54_array_listing_wrong _ _ Z_ring ival (checked_lawful t)) in H; [exact (H HL)|congruence|unfold len; rewrite Hl; exact Hu|apply Hz, N1].
  - apply (C54_array_listing_wrong (int t) (int_num false t) (w_ring t) (fun a : int t => a) (wrapping_lawful t)) in H; [|rewrite Hl; exact H2|unfold len; rewrite Hl; exact Hu|].
    + apply H. destruct HL as [A B]. split; [exact A|]. intros c d. rewrite B. rewrite dcoef_wred. unfold wred. cbn [r0 w_ring Z_ring].
      split.
      * intros [P Q]. split; [intros ->; apply P; apply ival_mk_int; destruct t; reflexivity|]. rewrite Q. apply mk_int_ival.
      * intros [P Q]. split.
        -- intros E. apply P. apply int_eq. rewrite E. symmetry. apply ival_mk_int. destruct t; reflexivity.
        -- rewrite <- Q. rewrite <- (dcoef_ival t). rewrite mk_int_ival. reflexivity.
    + apply Hz. intros E. apply (f_equal ival) in E. rewrite Z1 in E. cbn [r0 w_ring] in E. rewrite ival_mk_int in E; [discriminate|destruct t; reflexivity].
Qed.

Example C54_case :
  arr_terms (int_num true I8) (map (mk_int I8) [0; 0; 4]%Z) = Panic POverflow
  /\ rmap (map (fun t => (ival (fst t), snd t))) (arr_terms (int_num true I8) (map (mk_int I8) [4; 5; 0]%Z)) = Ok [(4%Z, 1%N); (5%Z, 0%N)]
  /\ rmap (map (fun t => (ival (fst t), snd t))) (arr_terms (int_num true I8) (map (mk_int I8) [4; 5]%Z)) = Ok [(4%Z, 1%N); (5%Z, 0%N)].
Proof. vm_compute. repeat split. Qed.

