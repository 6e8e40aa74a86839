(** Property C111: where the roots of an integer polynomial lie. *)

From Coq Require Import List NArith ZArith Reals Lia Lra Psatz Bool Arith.
From Coq Require Import ZifyBool ZifyNat ZifyN.
From Verif Require Import Base Num Spec SpecFacts Laws Terms Dense Sparse DenseFacts DenseArith DenseCalc SparseFacts SparseCalc RealNum.
From Verif Require Import P_Dense1 P_Dense2 P_Sparse1 P_Sparse2.
Import ListNotations.
Local Open Scope R_scope.

(** ** Specification: an integer polynomial at real points *)

Definition real_poly (c : nat -> Z) : poly R_ring := fun d => IZR (c d).

(** Degree n, leading coefficient a, no other coefficient above H in size. *)
Definition shape (c : nat -> Z) (n : nat) (a H : Z) : Prop :=
  c n = a /\ a <> 0%Z /\ (forall d, (n < d)%nat -> c d = 0%Z) /\ forall d, (d < n)%nat -> (Z.abs (c d) <= H)%Z.

(** ** Lemmas *)

Notation rsum := (@sumn R_ring).

Lemma rpow_pow x i : @rpow R_ring x i = x ^ i.
Proof. induction i as [|i IH]; [reflexivity|]. cbn [rpow pow]. rewrite IH. reflexivity. Qed.
Lemma zpow_pow x i : @rpow Z_ring x i = (x ^ Z.of_nat i)%Z.
Proof. induction i as [|i IH]; [reflexivity|]. cbn [rpow]. rewrite IH, Nat2Z.inj_succ, Z.pow_succ_r by lia. reflexivity. Qed.

Lemma sum_IZR (g : nat -> Z) n : IZR (@sumn Z_ring g n) = rsum (fun i => IZR (g i)) n.
Proof. induction n as [|n IH]; [reflexivity|]. cbn [sumn]. rewrite <- IH. apply plus_IZR. Qed.

Lemma value_IZR (c : nat -> Z) x v : @is_value Z_ring c x v -> @is_value R_ring (real_poly c) (IZR x) (IZR v).
Proof.
  intros (n & Hn & ->). exists n. split; [intros i Hi; unfold real_poly; rewrite Hn by exact Hi; reflexivity|].
  rewrite sum_IZR. apply sumn_ext. intros i Hi. unfold real_poly. change (@rmul Z_ring) with Z.mul. rewrite mult_IZR.
  change (@rmul R_ring) with Rmult. f_equal. rewrite zpow_pow, rpow_pow. symmetry. apply pow_IZR.
Qed.

Lemma sum_trunc (p : poly R_ring) x n m : (forall d, (n < d)%nat -> p d = 0) -> (n < m)%nat ->
  rsum (fun i => p i * @rpow R_ring x i) m = rsum (fun i => p i * @rpow R_ring x i) (S n).
Proof.
  intros H Hm. induction m as [|m IH]; [lia|]. destruct (Nat.eq_dec m n) as [->|E]; [reflexivity|]. cbn [sumn] in *.
  rewrite IH by lia. cbn [sumn]. rewrite (H m) by lia. change (@radd R_ring) with Rplus. lra.
Qed.

Lemma value_trunc (p : poly R_ring) x v n : @is_value R_ring p x v -> (forall d, (n < d)%nat -> p d = 0) ->
  v = rsum (fun i => p i * @rpow R_ring x i) (S n).
Proof.
  intros Hv H. apply (@is_value_fun R_ring p x v _ Hv). exists (S n). split; [intros i Hi; apply H; lia|reflexivity].
Qed.

(** Lower terms are smaller than the leading one. *)
Lemma lower_sum (p : poly R_ring) x H n : 1 <= Rabs x -> 0 <= H -> (forall d, (d < n)%nat -> Rabs (p d) <= H) ->
  (Rabs x - 1) * Rabs (rsum (fun i => p i * @rpow R_ring x i) n) <= H * (Rabs x ^ n - 1).
Proof.
  intros Hx H0. induction n as [|n IH]; intros Hp.
  - cbn [sumn pow]. change (@r0 R_ring) with 0. rewrite Rabs_R0. lra.
  - cbn [sumn]. change (@radd R_ring) with Rplus. rewrite rpow_pow. specialize (IH ltac:(intros; apply Hp; lia)).
    pose proof (Rabs_triang (rsum (fun i => p i * @rpow R_ring x i) n) (p n * x ^ n)) as T. rewrite Rabs_mult, <- RPow_abs in T.
    specialize (Hp n ltac:(lia)). cbn [pow]. assert (0 < Rabs x ^ n) by (apply pow_lt; lra).
    assert (Rabs (p n) * Rabs x ^ n <= H * Rabs x ^ n) by (apply Rmult_le_compat_r; lra).
    eapply Rle_trans; [apply Rmult_le_compat_l; [lra|exact T]|]. rewrite Rmult_plus_distr_l.
    assert ((Rabs x - 1) * (Rabs (p n) * Rabs x ^ n) <= (Rabs x - 1) * (H * Rabs x ^ n)) by (apply Rmult_le_compat_l; lra).
    lra.
Qed.

Lemma shape_real c n a H : shape c n a H -> (0 < n)%nat -> 0 <= IZR H.
Proof. intros (_ & _ & _ & S) Hn. apply IZR_le. specialize (S 0%nat Hn). lia. Qed.

(** Beyond the bound the value has the sign of the leading term. *)
Lemma far_sign c n a H x v : shape c n a H -> @is_value R_ring (real_poly c) x v ->
  IZR H < (Rabs x - 1) * Rabs (IZR a) -> 0 < v * (IZR a * x ^ n).
Proof.
  intros Sh Hv Hf. pose proof Sh as (Ea & Na & Hi & Lo). rewrite (value_trunc _ x v n Hv).
  2:{ intros d Hd. unfold real_poly. rewrite Hi by exact Hd. reflexivity. }
  cbn [sumn]. change (@radd R_ring) with Rplus. rewrite rpow_pow. unfold real_poly at 2. rewrite Ea.
  assert (Na' : IZR a <> 0) by (intros E; apply eq_IZR in E; lia).
  set (s := rsum (fun i => real_poly c i * @rpow R_ring x i) n). set (t := IZR a * x ^ n).
  assert (Pa : 0 < Rabs (IZR a)) by (apply Rabs_pos_lt, Na').
  destruct (Nat.eq_dec n 0) as [->|Nn].
  - unfold s, t. cbn [sumn pow]. change (@r0 R_ring) with 0. assert (0 < IZR a * IZR a) by (apply Rsqr_pos_lt, Na'). lra.
  - pose proof (shape_real c n a H Sh ltac:(lia)) as H0.
    assert (X1 : 1 < Rabs x) by (assert (0 < (Rabs x - 1) * Rabs (IZR a)) by lra; nra).
    assert (L : (Rabs x - 1) * Rabs s <= IZR H * (Rabs x ^ n - 1)).
    { apply (lower_sum (real_poly c) x (IZR H) n); [lra|exact H0|]. intros d Hd. unfold real_poly. rewrite <- abs_IZR. apply IZR_le, Lo, Hd. }
    assert (Pn : 1 <= Rabs x ^ n) by (apply pow_R1_Rle; lra).
    assert (At : Rabs t = Rabs (IZR a) * Rabs x ^ n) by (unfold t; rewrite Rabs_mult, RPow_abs; reflexivity).
    assert (Lt : Rabs s < Rabs t).
    { apply (Rmult_lt_reg_l (Rabs x - 1)); [lra|]. rewrite At.
      assert (IZR H * (Rabs x ^ n - 1) < (Rabs x - 1) * Rabs (IZR a) * Rabs x ^ n).
      { apply Rlt_le_trans with ((Rabs x - 1) * Rabs (IZR a) * Rabs x ^ n); [|apply Rle_refl].
        apply Rle_lt_trans with (IZR H * Rabs x ^ n); [nra|]. apply Rmult_lt_compat_r; lra. }
      lra. }
    assert (T0 : t <> 0) by (intros E; rewrite E, Rabs_R0 in Lt; pose proof (Rabs_pos s); lra).
    unfold Rabs in Lt. destruct (Rcase_abs s), (Rcase_abs t); nra.
Qed.

(** Continuity. *)
Lemma sum_cont (p : poly R_ring) n : continuity (fun x => rsum (fun i => p i * @rpow R_ring x i) n).
Proof.
  induction n as [|n IH]; intros x.
  - apply continuity_const. intros a b. reflexivity.
  - cbn [sumn]. change (@radd R_ring) with Rplus. apply continuity_pt_plus; [apply IH|]. apply continuity_pt_mult; [apply continuity_const; intros a b; reflexivity|].
    clear. induction n as [|n IH]; [apply continuity_const; intros a b; reflexivity|]. cbn [rpow]. change (@rmul R_ring) with Rmult.
    apply continuity_pt_mult; [apply derivable_continuous_pt, derivable_pt_id|exact IH].
Qed.

Lemma bracket (p : poly R_ring) a b u v : @is_value R_ring p a u -> @is_value R_ring p b v -> a < b -> u * v < 0 ->
  exists r, a < r < b /\ @is_value R_ring p r 0.
Proof.
  intros (n & Hn & Eu) Hv Hab Huv.
  assert (Ev : v = rsum (fun i => p i * @rpow R_ring b i) n) by (apply (@is_value_fun R_ring p b v _ Hv); exists n; split; [exact Hn|reflexivity]).
  destruct (IVT_cor (fun x => rsum (fun i => p i * @rpow R_ring x i) n) a b (sum_cont p n) ltac:(lra)) as (r & [R1 R2] & Er).
  - change (@rmul R_ring) with Rmult in Eu. cbn beta. rewrite <- Eu, <- Ev. lra.
  - exists r. split.
    + destruct R1 as [R1| ->]; [destruct R2 as [R2|E]; [lra|subst r]|].
      * cbn beta in Er. rewrite <- Ev in Er. rewrite Er in Huv. lra.
      * cbn beta in Er. change (@rmul R_ring) with Rmult in Eu. rewrite <- Eu in Er. rewrite Er in Huv. lra.
    + exists n. split; [exact Hn|]. symmetry. exact Er.
Qed.

(** The lowest coefficient. *)
Lemma low_divides (c : nat -> Z) x k : @is_value Z_ring c x 0%Z -> (forall d, (d < k)%nat -> c d = 0%Z) -> x <> 0%Z -> (x | c k)%Z.
Proof.
  intros (n & Hn & E) Hl Hx.
  assert (G : forall m, exists t, @sumn Z_ring (fun i => (c i * @rpow Z_ring x i)%Z) m = (if (m <=? k)%nat then 0 else x ^ Z.of_nat k * (c k + x * t))%Z).
  { induction m as [|m [t IH]]; [exists 0%Z; reflexivity|]. cbn [sumn]. rewrite IH. change (@radd Z_ring) with Z.add. rewrite zpow_pow.
    destruct (Nat.leb_spec m k) as [H|H].
    - destruct (Nat.eq_dec m k) as [->|N].
      + exists 0%Z. replace (S k <=? k)%nat with false by lia. cbn [car Z_ring]. ring.
      + exists 0%Z. replace (S m <=? k)%nat with true by lia. rewrite (Hl m) by lia. cbn [car Z_ring]. ring.
    - replace (S m <=? k)%nat with false by lia. exists (t + c m * x ^ Z.of_nat (m - k - 1))%Z.
      replace (Z.of_nat m) with (Z.of_nat k + 1 + Z.of_nat (m - k - 1))%Z by lia. rewrite !Z.pow_add_r by lia. cbn [car Z_ring]. ring. }
  destruct (G n) as [t Et]. change (@rmul Z_ring) with Z.mul in E. rewrite Et in E. destruct (Nat.leb_spec n k) as [H|H].
  - rewrite (Hn k H). apply Z.divide_0_r.
  - symmetry in E. apply Z.mul_eq_0 in E. destruct E as [E|E].
    + apply Z.pow_eq_0_iff in E. lia.
    + exists (- t)%Z. lia.
Qed.

Lemma shape_degree (c : nat -> Z) n H : @is_degree Z_ring c (Some n) -> (forall d, (d < n)%nat -> (Z.abs (c d) <= H)%Z) -> shape c n (c n) H.
Proof. intros [H1 H2] H3. split; [reflexivity|]. split; [exact H1|]. split; [exact H2|exact H3]. Qed.

(** ** C111 *)

(** Beyond the bound: evaluation has the sign of the leading term, so no real root is out there. *)
Theorem C111_sign : forall t n H (x : int t) y,
  (forall p, dense_degree (int_num true t) p = Num (N.of_nat n) -> (forall d, (d < n)%nat -> (Z.abs (dcoef Z_ring ival p d) <= H)%Z) ->
     dense_eval (int_num true t) p x = Ok y -> (H < (Z.abs (ival x) - 1) * Z.abs (dcoef Z_ring ival p n))%Z ->
     Z.sgn (ival y) = Z.sgn (dcoef Z_ring ival p n * ival x ^ Z.of_nat n)) /\
  (forall m, swf m -> Forall (fun kv => (fst kv < 2 ^ 32)%N) m -> sparse_degree (int_num true t) m = Num (N.of_nat n) ->
     (forall d, (d < n)%nat -> (Z.abs (scoef Z_ring ival m d) <= H)%Z) ->
     sparse_eval (int_num true t) m x = Ok y -> (H < (Z.abs (ival x) - 1) * Z.abs (scoef Z_ring ival m n))%Z ->
     Z.sgn (ival y) = Z.sgn (scoef Z_ring ival m n * ival x ^ Z.of_nat n)).
Proof.
  intros t n H x y.
  assert (G : forall c : nat -> Z, @is_degree Z_ring c (Some n) -> (forall d, (d < n)%nat -> (Z.abs (c d) <= H)%Z) -> @is_value Z_ring c (ival x) (ival y) ->
    (H < (Z.abs (ival x) - 1) * Z.abs (c n))%Z -> Z.sgn (ival y) = Z.sgn (c n * ival x ^ Z.of_nat n)).
  { intros c Hd Hl Hv Hf. pose proof (far_sign c n (c n) H (IZR (ival x)) (IZR (ival y)) (shape_degree c n H Hd Hl) (value_IZR c _ _ Hv)) as K.
    assert (K0 : IZR H < (Rabs (IZR (ival x)) - 1) * Rabs (IZR (c n))) by (rewrite <- !abs_IZR, <- minus_IZR, <- mult_IZR; apply IZR_lt, Hf).
    specialize (K K0). rewrite pow_IZR, <- !mult_IZR in K. apply (lt_IZR 0) in K. nia. }
  pose proof (checked_lawful t) as L. split.
  - intros p Hd Hl He Hf. apply G; auto.
    + pose proof (C02_dense_degree _ _ _ _ L p) as D. rewrite Hd in D. cbn [dn] in D. rewrite Nat2N.id in D. exact D.
    + apply (C12_dense_eval _ _ _ _ L _ _ _ He).
  - intros m Hm Hk Hd Hl He Hf. apply G; auto.
    + pose proof (proj1 (C02_sparse_degree _ _ _ _ L m Hm)) as D. rewrite Hd in D. cbn [dn] in D. rewrite Nat2N.id in D. exact D.
    + apply (C12_sparse_eval _ _ _ _ L _ _ _ Hk He).
Qed.

(** Every real root is within 1 + H / |a_n|. *)
Theorem C111_enclosure : forall chk t n H (r : R),
  (forall p, dense_degree (int_num chk t) p = Num (N.of_nat n) -> (forall d, (d < n)%nat -> (Z.abs (dcoef Z_ring ival p d) <= H)%Z) ->
     @is_value R_ring (real_poly (dcoef Z_ring ival p)) r 0 -> Rabs r <= 1 + IZR H / Rabs (IZR (dcoef Z_ring ival p n))) /\
  (forall m, swf m -> sparse_degree (int_num chk t) m = Num (N.of_nat n) -> (forall d, (d < n)%nat -> (Z.abs (scoef Z_ring ival m d) <= H)%Z) ->
     @is_value R_ring (real_poly (scoef Z_ring ival m)) r 0 -> Rabs r <= 1 + IZR H / Rabs (IZR (scoef Z_ring ival m n))).
Proof.
  intros chk t n H r.
  assert (G : forall c : nat -> Z, @is_degree Z_ring c (Some n) -> (forall d, (d < n)%nat -> (Z.abs (c d) <= H)%Z) -> @is_value R_ring (real_poly c) r 0 ->
    Rabs r <= 1 + IZR H / Rabs (IZR (c n))).
  { intros c Hd Hl Hv. pose proof (shape_degree c n H Hd Hl) as Sh. destruct (Rle_or_lt (Rabs r) (1 + IZR H / Rabs (IZR (c n)))) as [|K]; [assumption|exfalso].
    assert (Pa : 0 < Rabs (IZR (c n))) by (apply Rabs_pos_lt; intros E; apply eq_IZR in E; apply (proj1 Hd), E).
    pose proof (far_sign c n (c n) H r 0 Sh Hv) as F. rewrite Rmult_0_l in F. apply (Rlt_irrefl 0), F.
    apply (Rmult_lt_reg_r (/ Rabs (IZR (c n)))); [apply Rinv_0_lt_compat, Pa|]. rewrite Rmult_assoc, Rinv_r by lra. unfold Rdiv in K. lra. }
  assert (D1 : forall p, dense_degree (int_num chk t) p = dense_degree (int_num true t) p) by (intros; reflexivity).
  assert (D2 : forall m, sparse_degree (int_num chk t) m = sparse_degree (int_num true t) m) by (intros; reflexivity).
  pose proof (checked_lawful t) as L. split.
  - intros p Hd Hl Hv. apply G; auto. pose proof (C02_dense_degree _ _ _ _ L p) as D. rewrite <- D1, Hd in D. cbn [dn] in D. rewrite Nat2N.id in D. exact D.
  - intros m Hm Hd Hl Hv. apply G; auto. pose proof (proj1 (C02_sparse_degree _ _ _ _ L m Hm)) as D. rewrite <- D2, Hd in D. cbn [dn] in D. rewrite Nat2N.id in D. exact D.
Qed.

(** Evaluations of opposite sign enclose a real root. *)
Theorem C111_bracket : forall t (a b : int t) u v, (ival a < ival b)%Z -> (ival u * ival v < 0)%Z ->
  (forall p, dense_eval (int_num true t) p a = Ok u -> dense_eval (int_num true t) p b = Ok v ->
     exists r, IZR (ival a) < r < IZR (ival b) /\ @is_value R_ring (real_poly (dcoef Z_ring ival p)) r 0) /\
  (forall m, Forall (fun kv => (fst kv < 2 ^ 32)%N) m -> sparse_eval (int_num true t) m a = Ok u -> sparse_eval (int_num true t) m b = Ok v ->
     exists r, IZR (ival a) < r < IZR (ival b) /\ @is_value R_ring (real_poly (scoef Z_ring ival m)) r 0).
Proof.
  intros t a b u v Hab Huv. pose proof (checked_lawful t) as L. apply IZR_lt in Hab, Huv. rewrite mult_IZR in Huv. split.
  - intros p Ha Hb. apply (bracket _ _ _ (IZR (ival u)) (IZR (ival v))); auto; apply value_IZR.
    + apply (C12_dense_eval _ _ _ _ L _ _ _ Ha). + apply (C12_dense_eval _ _ _ _ L _ _ _ Hb).
  - intros m Hk Ha Hb. apply (bracket _ _ _ (IZR (ival u)) (IZR (ival v))); auto; apply value_IZR.
    + apply (C12_sparse_eval _ _ _ _ L _ _ _ Hk Ha). + apply (C12_sparse_eval _ _ _ _ L _ _ _ Hk Hb).
Qed.

(** An integer root other than 0 divides the lowest non-zero coefficient. *)
Theorem C111_lowest : forall t k (x : int t) y, ival y = 0%Z -> ival x <> 0%Z ->
  (forall p, (forall d, (d < k)%nat -> dcoef Z_ring ival p d = 0%Z) -> dense_eval (int_num true t) p x = Ok y -> (ival x | dcoef Z_ring ival p k)%Z) /\
  (forall m, Forall (fun kv => (fst kv < 2 ^ 32)%N) m -> (forall d, (d < k)%nat -> scoef Z_ring ival m d = 0%Z) ->
     sparse_eval (int_num true t) m x = Ok y -> (ival x | scoef Z_ring ival m k)%Z).
Proof.
  intros t k x y Hy Hx. pose proof (checked_lawful t) as L. split.
  - intros p Hl He. apply low_divides; auto. rewrite <- Hy. apply (C12_dense_eval _ _ _ _ L _ _ _ He).
  - intros m Hk Hl He. apply low_divides; auto. rewrite <- Hy. apply (C12_sparse_eval _ _ _ _ L _ _ _ Hk He).
Qed.

(** x^3 - 7x^2 + 10x in i32: no root beyond 11; -8 at 4 and 24 at 6 enclose the root 5, which divides 10. *)
Example C111_case : let O := int_num true I32 in let n := mk_int I32 in let p := [n 1%Z; n (-7)%Z; n 10%Z; n 0%Z] in
  dense_degree O p = Num 3%N /\ (forall d, (d < 3)%nat -> (Z.abs (dcoef Z_ring ival p d) <= 10)%Z) /\
  dense_eval O p (n 12%Z) = Ok (n 840%Z) /\ (10 < (Z.abs (ival (n 12%Z)) - 1) * Z.abs (dcoef Z_ring ival p 3%nat))%Z /\
  dense_eval O p (n 4%Z) = Ok (n (-8)%Z) /\ dense_eval O p (n 6%Z) = Ok (n 24%Z) /\ dense_eval O p (n 5%Z) = Ok (n 0%Z) /\
  dcoef Z_ring ival p 0%nat = 0%Z /\ dcoef Z_ring ival p 1%nat = 10%Z.
Proof.
  assert (D : forall d, (d < 3)%nat -> d = 0%nat \/ d = 1%nat \/ d = 2%nat) by lia.
  intros O n p. repeat split; try (vm_compute; reflexivity); try (vm_compute; f_equal; apply int_eq; reflexivity).
  intros d Hd. destruct (D d Hd) as [->|[->| ->]]; vm_compute; discriminate.
Qed.

Print Assumptions C111_sign.
Print Assumptions C111_enclosure.
Print Assumptions C111_bracket.
Print Assumptions C111_lowest.
