(** Property C84: evaluating sparse polynomials and monomials over floats. *)

From Coq Require Import List NArith ZArith Reals Lia Lra Bool Arith Sorted.
From Coq Require Import ZifyBool ZifyNat ZifyN.
From Flocq Require Import Core BinarySingleNaN.
From Verif Require Import Base Num Spec SpecFacts Laws Terms Dense DenseFacts Sparse SparseFacts SparseArith Coef Mono.
From Verif Require Import RealNum Floats FloatFacts FloatErr FloatEval FloatMul FloatCoef FloatSparse P_FloatErr P_FloatRep.
Import ListNotations.
Local Open Scope R_scope.

(** numerics.rs 111-121: PowUsize for f32 and f64, [self.powi(exp as i32)]: the exponent is
    reduced to 32 bits, the upper half of which is negative. *)
Definition as_i32 (e : N) : Z := wrap I32 (Z.of_N e).
Definition f_upow {f} (powi : flt f -> Z -> flt f) (x : flt f) (e : N) : flt f := powi x (as_i32 e).

(** ** Specification *)

(** [powi] at [x], which Rust leaves to the platform: where finite, within the relative
    error [dl] and the absolute error [ep] of the power. *)
Definition powi_accurate {f} (powi : flt f -> Z -> flt f) (dl ep : R) (x : flt f) : Prop :=
  forall z, is_finite (powi x z) = true -> Rabs (B2R (powi x z) - powerRZ (B2R x) z) <= dl * Rabs (powerRZ (B2R x) z) + ep.

(** The real polynomial of a map from degrees, and the one of the absolute values. *)
Definition spoly {f} (m : bmap (flt f)) : poly R_ring := fun d => B2R (P_FloatErr.mcoef m (N.of_nat d)).
Definition spoly_abs {f} (m : bmap (flt f)) : poly R_ring := fun d => Rabs (B2R (P_FloatErr.mcoef m (N.of_nat d))).

(** ** Lemmas *)

Lemma as_i32_small e : (e < 2 ^ 31)%N -> as_i32 e = Z.of_N e.
Proof. intros H. apply wrap_id. unfold in_range, imin, imax. cbn [signed bits]. change (2 ^ (32 - 1))%Z with (2 ^ 31)%Z. apply andb_true_iff. split; apply Z.leb_le; lia. Qed.

Definition lsum {A} (g : A -> R) (l : list A) : R := fold_right (fun a s => g a + s) 0 l.

Lemma lsum_le {A} (g h : A -> R) l : (forall a, In a l -> g a <= h a) -> lsum g l <= lsum h l.
Proof. induction l as [|a l IH]; intros H; [apply Rle_refl|]. cbn. apply Rplus_le_compat; [apply H; left; reflexivity|apply IH; intros; apply H; right; assumption]. Qed.
Lemma lsum_abs {A} (g : A -> R) l : Rabs (lsum g l) <= lsum (fun a => Rabs (g a)) l.
Proof. induction l as [|a l IH]; [cbn; rewrite Rabs_R0; lra|]. cbn. eapply Rle_trans; [apply Rabs_triang|]. apply Rplus_le_compat_l, IH. Qed.
Lemma lsum_sub {A} (g h : A -> R) l : lsum g l - lsum h l = lsum (fun a => g a - h a) l.
Proof. unfold lsum. induction l as [|a l IH]; cbn; [ring|]. rewrite <- IH. ring. Qed.
Lemma lsum_lin {A} (g h : A -> R) p q l : lsum (fun a => p * g a + q * h a) l = p * lsum g l + q * lsum h l.
Proof. unfold lsum. induction l as [|a l IH]; cbn; [ring|]. rewrite IH. ring. Qed.

Section Sum.
Context (chk : bool) (f : fty) (powi : flt f -> Z -> flt f).
Notation O := (float_num chk f (f_upow powi)).
Notation u := (uro f).
Notation B := (@B2R (fprec f) (femax f)).
Implicit Types m : bmap (flt f).

Lemma spoly_sum (g : flt f -> R) m x : g (fzero f) = 0 -> NoDup (map fst m) ->
  @is_value R_ring (fun d => g (P_FloatErr.mcoef m (N.of_nat d))) x (lsum (fun kv => g (snd kv) * x ^ N.to_nat (fst kv)) m).
Proof.
  intros G0. induction m as [|[k v] m IH]; intros Hn.
  - apply (@is_value_zero R_ring). intros d. exact G0.
  - cbn [map fst] in Hn. apply NoDup_cons_iff in Hn. destruct Hn as [Hi Hn]. cbn [lsum fold_right fst snd].
    eapply is_value_ext; [intros d; symmetry; apply (gpoly_cons f (fun a _ => a) g k v m G0 Hi d)|].
    apply (@is_value_padd R_ring); [|apply IH, Hn].
    replace (g v * x ^ N.to_nat k) with (@rmul R_ring (g v) (@rpow R_ring x (N.to_nat k))); [apply (@is_value_pmono R_ring)|reflexivity].
Qed.

Definition sstep (x s : flt f) (kv : N * flt f) : flt f := fadd s (fmul (snd kv) (powi x (as_i32 (fst kv)))).
Lemma eval_fold m x : sparse_eval O m x = Ok (fold_left (sstep x) m (fzero f)).
Proof. unfold sparse_eval. change (zero O) with (fzero f). generalize (fzero f). induction m as [|kv m IH]; intros s; [reflexivity|]. cbn [foldM fold_left]. apply IH. Qed.

Lemma fold_finite x m : forall s, is_finite (fold_left (sstep x) m s) = true -> is_finite s = true.
Proof. induction m as [|kv m IH]; intros s H; [exact H|]. apply IH in H. apply fadd_operands in H. apply H. Qed.

Lemma fold_appr x m : forall s k v A E, is_finite (fold_left (sstep x) m s) = true -> appr u (S k) (B s) v A E -> 0 <= E ->
  Forall (fun kv => is_finite (powi x (as_i32 (fst kv))) = true) m /\
  appr u (S k + length m) (B (fold_left (sstep x) m s))
    (v + lsum (fun kv => B (snd kv) * B (powi x (as_i32 (fst kv)))) m)
    (A + lsum (fun kv => Rabs (B (snd kv)) * Rabs (B (powi x (as_i32 (fst kv))))) m)
    ((1 + u) ^ length m * (E + INR (length m) * eta f)).
Proof.
  induction m as [|kv m IH]; intros s k v A E Hf Ha HE.
  - split; [constructor|]. cbn [fold_left lsum fold_right length pow INR]. rewrite !Rplus_0_r, Nat.add_0_r. eapply (appr_weaken _ (@uro_pos f)); [apply le_n| |exact Ha]. cbn. lra.
  - cbn [fold_left] in *. pose proof (fold_finite x m _ Hf) as Hs. unfold sstep in Hs at 1. pose proof (fadd_operands _ _ Hs) as [Hs0 Ht].
    destruct (fmul_operands _ _ Ht) as [Hc Hp].
    destruct (fmul_err _ _ Ht) as (e & h & He & Hh & Et). destruct (fadd_err _ _ Hs) as (e1 & He1 & E1).
    assert (Hu := @uro_pos f). assert (Hη := @eta_pos f).
    assert (Hk : appr u (S k) (B (fmul (snd kv) (powi x (as_i32 (fst kv))))) (B (snd kv) * B (powi x (as_i32 (fst kv))))
      (Rabs (B (snd kv)) * Rabs (B (powi x (as_i32 (fst kv))))) (eta f)).
    { rewrite Et. eapply (appr_weaken _ Hu); [| |apply (appr_mul _ 0 _ _ _ _ _ e h (eta f) He Hh (appr_exact _ _))]; [lia|lra]. }
    pose proof (appr_add _ (S k) _ _ _ _ _ _ _ _ e1 He1 Ha Hk) as K. rewrite <- E1 in K.
    destruct (IH (sstep x s kv) (S k) _ _ _ Hf K) as [K1 K2]; [apply Rmult_le_pos; lra|].
    split; [constructor; assumption|]. cbn [lsum fold_right length]. fold (@lsum (N * flt f)).
    replace (S k + S (length m))%nat with (S (S k) + length m)%nat by lia. rewrite <- !Rplus_assoc.
    eapply (appr_weaken _ (@uro_pos f)); [apply le_n| |exact K2].
    cbn [pow]. rewrite S_INR. pose proof (pow_ge_1 u Hu (length m)). pose proof (pos_INR (length m)).
    set (w := (1 + u) ^ length m) in *. set (n := INR (length m)) in *.
    replace ((1 + u) * w * (E + (n + 1) * eta f)) with (w * ((1 + u) * (E + eta f) + (1 + u) * (n * eta f))) by ring.
    apply Rmult_le_compat_l; [lra|]. apply Rplus_le_compat_l. assert (0 <= n * eta f) by (apply Rmult_le_pos; lra). nra.
Qed.

End Sum.

Lemma feqb_B2R0 {f} (x : flt f) : feqb x (fzero f) = true -> B2R x = 0.
Proof. destruct x as [s|s| |s m e H]; [reflexivity|destruct s; discriminate|discriminate|destruct s; discriminate]. Qed.

Lemma upow_near {f} (powi : flt f -> Z -> flt f) dl ep x k : powi_accurate powi dl ep x -> (k < 2 ^ 31)%N -> is_finite (powi x (as_i32 k)) = true ->
  Rabs (B2R (powi x (as_i32 k)) - B2R x ^ N.to_nat k) <= dl * Rabs (B2R x) ^ N.to_nat k + ep.
Proof.
  intros H Hk Hf. pose proof (H (as_i32 k) Hf) as K. rewrite (as_i32_small k Hk) in *.
  rewrite <- (N_nat_Z k), <- pow_powerRZ, <- RPow_abs in K. rewrite <- (N_nat_Z k). exact K.
Qed.

(** ** Theorems *)

(** The value of a sparse polynomial: one relative error for every addition and product, that
    of [powi], and underflow. *)
Theorem C84_sparse : forall chk f (powi : flt f -> Z -> flt f) dl ep (m : bmap (flt f)) (x : flt f), let O := float_num chk f (f_upow powi) in
  let n := length m in
  exists y, sparse_eval O m x = Ok y /\
  (forall v A C, 0 <= dl -> 0 <= ep -> powi_accurate powi dl ep x -> swf m -> Forall (fun kv => (fst kv < 2 ^ 31)%N) m -> is_finite y = true ->
    @is_value R_ring (spoly m) (B2R x) v -> @is_value R_ring (spoly_abs m) (Rabs (B2R x)) A -> @is_value R_ring (spoly_abs m) 1 C ->
    Rabs (B2R y - v) <= ((1 + uro f) ^ (n + 1) * (1 + dl) - 1) * A + (1 + uro f) ^ (n + 1) * ep * C + (1 + uro f) ^ n * INR n * eta f).
Proof.
  intros chk f powi dl ep m x O n. eexists. split; [apply eval_fold|]. intros v A C Hd He Hp [Hs _] Hk Hf Hv HA HC.
  assert (Nd : NoDup (map fst m)) by (exact (sorted_nodup _ Hs)).
  destruct (fold_appr f powi x m (fzero f) 0 0 0 0 Hf) as [Hpf [_ K]].
  { split; [rewrite Rabs_R0; lra|]. change (B2R (fzero f)) with 0. rewrite Rminus_0_r, Rabs_R0. lra. }
  { lra. }
  set (y := fold_left (sstep f powi x) m (fzero f)) in *. rewrite !Rplus_0_l in K.
  pose proof (spoly_sum f (@B2R (fprec f) (femax f)) m (B2R x) eq_refl Nd) as V.
  pose proof (spoly_sum f (fun a => Rabs (B2R a)) m (Rabs (B2R x)) Rabs_R0 Nd) as VA.
  pose proof (spoly_sum f (fun a => Rabs (B2R a)) m 1 Rabs_R0 Nd) as VC.
  rewrite (@is_value_fun R_ring _ _ _ _ Hv V), (@is_value_fun R_ring _ _ _ _ HA VA), (@is_value_fun R_ring _ _ _ _ HC VC).
  clear V VA VC Hv HA HC v A C. cbn beta in *.
  set (sv := lsum (fun kv => B2R (snd kv) * B2R x ^ N.to_nat (fst kv)) m) in *.
  set (sA := lsum (fun kv => Rabs (B2R (snd kv)) * Rabs (B2R x) ^ N.to_nat (fst kv)) m) in *.
  set (sC := lsum (fun kv => Rabs (B2R (snd kv)) * 1 ^ N.to_nat (fst kv)) m) in *.
  set (v' := lsum (fun kv => B2R (snd kv) * B2R (powi x (as_i32 (fst kv)))) m) in *.
  set (A' := lsum (fun kv => Rabs (B2R (snd kv)) * Rabs (B2R (powi x (as_i32 (fst kv))))) m) in *.
  change (Rabs (B2R y - sv) <= ((1 + uro f) ^ (n + 1) * (1 + dl) - 1) * sA + (1 + uro f) ^ (n + 1) * ep * sC + (1 + uro f) ^ n * INR n * eta f).
  assert (near : forall kv, In kv m -> Rabs (B2R (powi x (as_i32 (fst kv))) - B2R x ^ N.to_nat (fst kv)) <= dl * Rabs (B2R x) ^ N.to_nat (fst kv) + ep).
  { intros kv Hi. apply upow_near; [exact Hp| |]; [exact (proj1 (Forall_forall _ _) Hk kv Hi)|exact (proj1 (Forall_forall _ _) Hpf kv Hi)]. }
  assert (K1 : Rabs (v' - sv) <= dl * sA + ep * sC).
  { unfold v', sv. rewrite lsum_sub. eapply Rle_trans; [apply lsum_abs|]. unfold sA, sC. rewrite <- lsum_lin. apply lsum_le. intros [k c] Hi. specialize (near (k, c) Hi). cbn [fst snd] in *.
    rewrite <- Rmult_minus_distr_l, Rabs_mult, pow1. pose proof (Rmult_le_compat_l _ _ _ (Rabs_pos (B2R c)) near) as P. eapply Rle_trans; [exact P|]. right. ring. }
  assert (K2 : A' <= (1 + dl) * sA + ep * sC).
  { unfold A', sA, sC. rewrite <- lsum_lin. apply lsum_le. intros [k c] Hi. pose proof (near (k, c) Hi) as P. cbn [fst snd] in *. rewrite pow1.
    assert (H0 : Rabs (B2R (powi x (as_i32 k))) <= (1 + dl) * Rabs (B2R x) ^ N.to_nat k + ep).
    { rewrite RPow_abs in P |- *. pose proof (Rabs_triang_inv (B2R (powi x (as_i32 k))) (B2R x ^ N.to_nat k)). lra. }
    eapply Rle_trans; [apply (Rmult_le_compat_l _ _ _ (Rabs_pos (B2R c)) H0)|]. right. ring. }
  replace (1 + length m)%nat with (n + 1)%nat in K by (subst n; lia). fold n in K.
  pose proof (pow_ge_1 (uro f) uro_pos (n + 1)) as W. set (w := (1 + uro f) ^ (n + 1)) in *.
  replace (B2R y - sv) with ((B2R y - v') + (v' - sv)) by ring. eapply Rle_trans; [apply Rabs_triang|].
  assert ((w - 1) * A' <= (w - 1) * ((1 + dl) * sA + ep * sC)) by (apply Rmult_le_compat_l; lra).
  eapply Rle_trans; [apply Rplus_le_compat; [exact K|exact K1]|]. clear K K1. lra.
Qed.

(** A monomial. *)
Theorem C84_monomial : forall chk f (powi : flt f -> Z -> flt f) dl ep (c : flt f) k (x : flt f), let O := float_num chk f (f_upow powi) in
  exists y, mono_eval O (MkMono c k) x = Ok y /\
  (0 <= dl -> 0 <= ep -> powi_accurate powi dl ep x -> (k < 2 ^ 31)%N -> is_finite y = true ->
    Rabs (B2R y - B2R c * B2R x ^ N.to_nat k) <=
      ((1 + uro f) * (1 + dl) - 1) * (Rabs (B2R c) * Rabs (B2R x) ^ N.to_nat k) + (1 + uro f) * ep * Rabs (B2R c) + eta f).
Proof.
  intros chk f powi dl ep c k x O. eexists. split; [reflexivity|]. cbn [Mono.mcoef mdeg]. unfold f_upow. intros Hd He Hp Hk Hf.
  destruct (fmul_operands _ _ Hf) as [_ Hpf]. destruct (fmul_err _ _ Hf) as (e & h & He' & Hh & E). rewrite E. clear E.
  pose proof (upow_near powi dl ep x k Hp Hk Hpf) as P. set (p := B2R (powi x (as_i32 k))) in *. set (q := B2R x ^ N.to_nat k) in *.
  rewrite RPow_abs in *. fold q in P |- *. set (cc := B2R c) in *. assert (Hu := @uro_pos f).
  replace (cc * p * (1 + e) + h - cc * q) with (cc * (p - q) * (1 + e) + cc * q * e + h) by ring.
  eapply Rle_trans; [apply Rabs_triang|]. apply Rplus_le_compat; [|exact Hh]. eapply Rle_trans; [apply Rabs_triang|]. rewrite !Rabs_mult.
  assert (Rabs (1 + e) <= 1 + uro f) by (eapply Rle_trans; [apply Rabs_triang|]; rewrite Rabs_R1; lra).
  pose proof (Rabs_pos cc). pose proof (Rabs_pos q). pose proof (Rabs_pos e). pose proof (Rabs_pos (p - q)).
  assert (Rabs cc * Rabs (p - q) * Rabs (1 + e) <= Rabs cc * (dl * Rabs q + ep) * (1 + uro f)).
  { apply Rmult_le_compat; [apply Rmult_le_pos; assumption|apply Rabs_pos| |assumption]. apply Rmult_le_compat_l; assumption. }
  assert (Rabs cc * Rabs q * Rabs e <= Rabs cc * Rabs q * uro f) by (apply Rmult_le_compat_l; [apply Rmult_le_pos; assumption|assumption]).
  nra.
Qed.

(** The same polynomial, dense and sparse: the values differ by no more than the two bounds. *)
Theorem C84_agree : forall chk f (powi : flt f -> Z -> flt f) dl ep (a : list (flt f)) (m : bmap (flt f)) (x y z : flt f) A C, let O := float_num chk f (f_upow powi) in
  let n := (2 * (length a - 1))%nat in let k := length m in
  swf m -> agree a m -> 0 <= dl -> 0 <= ep -> powi_accurate powi dl ep x -> Forall (fun kv => (fst kv < 2 ^ 31)%N) m ->
  dense_eval O a x = Ok y -> sparse_eval O m x = Ok z -> is_finite x = true -> is_finite y = true -> is_finite z = true ->
  @is_value R_ring (spoly_abs m) (Rabs (B2R x)) A -> @is_value R_ring (spoly_abs m) 1 C ->
  Rabs (B2R y - B2R z) <= ((1 + uro f) ^ n - 1) * A + (1 + uro f) ^ n * tiny f (Rabs (B2R x)) (length a - 1) +
    (((1 + uro f) ^ (k + 1) * (1 + dl) - 1) * A + (1 + uro f) ^ (k + 1) * ep * C + (1 + uro f) ^ k * INR k * eta f).
Proof.
  intros chk f powi dl ep a m x y z A C O n k Hm Ha Hd He Hp Hk Hy Hz Fx Fy Fz HA HC.
  assert (Nd : NoDup (map fst m)) by (exact (sorted_nodup _ (proj1 Hm))).
  assert (E : forall d, @B2R (fprec f) (femax f) (vcoef a d) = B2R (P_FloatErr.mcoef m (N.of_nat d))).
  { intros d. destruct (Ha d) as [->|[E1 E2]]; [reflexivity|]. apply feqb_B2R0 in E1, E2. congruence. }
  pose proof (spoly_sum f (@B2R (fprec f) (femax f)) m (B2R x) eq_refl Nd) as V. set (v := lsum _ _) in V.
  destruct (C84_sparse chk f powi dl ep m x) as (z' & Ez & S). fold O in Ez. rewrite Hz in Ez. injection Ez as <-.
  pose proof (S v A C Hd He Hp Hm Hk Fz V HA HC) as Kz. fold k in Kz.
  assert (Ky : Rabs (B2R y - v) <= ((1 + uro f) ^ n - 1) * A + (1 + uro f) ^ n * tiny f (Rabs (B2R x)) (length a - 1)).
  { apply (C65_error chk f (f_upow powi) a x y v A Hy Fy Fx); [eapply is_value_ext; [|exact V]|eapply is_value_ext; [|exact HA]]; intros d; unfold rpoly, rpoly_abs, spoly_abs; rewrite E; reflexivity. }
  replace (B2R y - B2R z) with ((B2R y - v) - (B2R z - v)) by ring. eapply Rle_trans; [apply Rabs_triang|]. rewrite Rabs_Ropp. lra.
Qed.

(** The exponent is used as a signed 32-bit number. *)
Theorem C84_exponent : forall chk f (powi : flt f -> Z -> flt f) (c x : flt f) k z, let O := float_num chk f (f_upow powi) in
  (- 2 ^ 31 <= z < 2 ^ 31)%Z -> (Z.of_N k mod 2 ^ 32 = z mod 2 ^ 32)%Z ->
  mono_eval O (MkMono c k) x = Ok (fmul c (powi x z)) /\ sparse_eval O [(k, c)] x = Ok (fadd (fzero f) (fmul c (powi x z))).
Proof.
  intros chk f powi c x k z O Hz E. assert (K : as_i32 k = z).
  { unfold as_i32. rewrite <- (wrap_id I32 z); [apply wrap_congr_iff; exact E|].
    unfold in_range, imin, imax. cbn [signed bits]. change (2 ^ (32 - 1))%Z with (2 ^ 31)%Z. apply andb_true_iff. split; apply Z.leb_le; lia. }
  rewrite <- K. split; reflexivity.
Qed.

(** So x^(2^31) at one half, which is less than 2^(-2^31), is not even finite, for any [powi]
    that is right within a factor. *)
Theorem C84_exponent_refuted : forall f, exists (c x : flt f) k, B2R c = 1 /\ B2R x = / 2 /\ k = (2 ^ 31)%N /\ (k <= USIZE_MAX)%N /\
  0 < B2R c * B2R x ^ N.to_nat k <= bpow radix2 (- 2 ^ 31) /\
  forall chk (powi : flt f -> Z -> flt f) dl ep, dl <= / 2 -> ep <= 1 -> powi_accurate powi dl ep x -> let O := float_num chk f (f_upow powi) in
  (exists y, mono_eval O (MkMono c k) x = Ok y /\ is_finite y = false) /\ (exists y, sparse_eval O [(k, c)] x = Ok y /\ is_finite y = false).
Proof.
  intros f. exists (f_of_Z f 1), (fdiv (f_of_Z f 1) (f_of_Z f 2)), (2 ^ 31)%N.
  assert (H1 : B2R (f_of_Z f 1) = 1) by (destruct f; vm_compute; lra).
  assert (H2 : B2R (fdiv (f_of_Z f 1) (f_of_Z f 2)) = / 2) by (destruct f; vm_compute; lra).
  set (x := fdiv _ _) in *. clearbody x. rewrite H1, H2. split; [reflexivity|]. split; [reflexivity|]. split; [reflexivity|]. split; [discriminate|].
  assert (Hb : forall n, (/ 2) ^ n = bpow radix2 (- Z.of_nat n)).
  { intros n. rewrite bpow_opp, bpow_powerRZ, <- pow_powerRZ. change (IZR radix2) with 2. rewrite <- pow_inv. reflexivity. }
  split.
  { rewrite Rmult_1_l, Hb, N_nat_Z. split; [apply bpow_gt_0|]. right. reflexivity. }
  intros chk powi dl ep Hd He Hp O.
  destruct (C84_exponent chk f powi (f_of_Z f 1) x (2 ^ 31) (- 2 ^ 31) ltac:(lia) eq_refl) as [E1 E2]. fold O in E1, E2.
  assert (Hn : is_finite (powi x (- 2 ^ 31)%Z) = false).
  { destruct (is_finite (powi x (- 2 ^ 31)%Z)) eqn:Ef; [|reflexivity]. exfalso. pose proof (Hp _ Ef) as K.
    rewrite H2, powerRZ_inv', powerRZ_neg', Rinv_inv in K. assert (B2 : powerRZ 2 (2 ^ 31) = bpow radix2 (2 ^ 31)) by (symmetry; apply bpow_powerRZ). rewrite B2 in K.
    pose proof (abs_B2R_lt_emax _ _ (powi x (- 2 ^ 31)%Z)) as L. rewrite (Rabs_pos_eq (bpow radix2 (2 ^ 31)) (bpow_ge_0 _ _)) in K.
    assert (P : bpow radix2 (femax f + 2) <= bpow radix2 (2 ^ 31)) by (apply bpow_le; destruct f; cbn; lia).
    rewrite bpow_plus in P. assert (B4 : bpow radix2 2 = 4) by reflexivity. rewrite B4 in P. assert (Q : bpow radix2 1 <= bpow radix2 (femax f)) by (apply bpow_le; destruct f; cbn; lia).
    assert (B1 : bpow radix2 1 = 2) by reflexivity. rewrite B1 in Q. clear B1 B2 B4. set (q := bpow radix2 (2 ^ 31)) in *. set (e := bpow radix2 (femax f)) in *. generalize dependent q. set (y := B2R (powi x _)) in *. clearbody y e. intros q K P.
    assert (dl * q <= / 2 * q) by (apply Rmult_le_compat_r; lra). revert K L. unfold Rabs. destruct (Rcase_abs (y - q)), (Rcase_abs y); intros; lra. }
  assert (Hm : is_finite (fmul (f_of_Z f 1) (powi x (- 2 ^ 31)%Z)) = false).
  { destruct (is_finite (fmul _ _)) eqn:Ef; [|reflexivity]. apply fmul_operands in Ef. rewrite Hn in Ef. destruct Ef. discriminate. }
  split; eexists; (split; [eassumption|]); [exact Hm|].
  destruct (is_finite (fadd _ _)) eqn:Ef; [|reflexivity]. apply fadd_operands in Ef. rewrite Hm in Ef. destruct Ef. discriminate.
Qed.

(** 5x^2 - 3 at 3 and a [powi] that multiplies, for squares. *)
Example C84_case : let powi (x : flt F64) (z : Z) := match z with 0%Z => f_of_Z F64 1 | 1%Z => x | 2%Z => fmul x x | _ => B754_nan end in
  let m : bmap (flt F64) := [(0%N, f_of_Z F64 (-3)); (2%N, f_of_Z F64 5)] in let a : list (flt F64) := [f_of_Z F64 5; fzero F64; f_of_Z F64 (-3)] in
  let x := f_of_Z F64 3 in let O := float_num true F64 (f_upow powi) in
  powi_accurate powi 0 0 x /\ swf m /\ agree a m /\ Forall (fun kv => (fst kv < 2 ^ 31)%N) m /\
  rmap B2SF (sparse_eval O m x) = Ok (B2SF (f_of_Z F64 42)) /\ rmap B2SF (dense_eval O a x) = Ok (B2SF (f_of_Z F64 42)) /\
  rmap B2SF (mono_eval O (MkMono (f_of_Z F64 5) 2) x) = Ok (B2SF (f_of_Z F64 45)).
Proof.
  intros powi m a x O.
  assert (H3 : B2R x = 3) by (vm_compute; lra).
  split; [|split; [|split; [|split; [|split; [|split]]]]].
  - intros z Hz. rewrite Rmult_0_l, Rplus_0_r, H3. right.
    match goal with |- Rabs ?d = 0 => enough (E : d = 0) by (rewrite E; apply Rabs_R0) end.
    destruct z as [|[p|[p|p|]|]|p]; try discriminate Hz; cbn [powi].
    + change (B2R (f_of_Z F64 1) - 1 = 0). vm_compute. lra.
    + change (B2R (fmul x x) - 3 ^ 2 = 0). replace (B2R (fmul x x)) with 9 by (vm_compute; lra). lra.
    + change (B2R x - 3 ^ 1 = 0). rewrite H3. lra.
  - split; [repeat constructor|]. rewrite Forall_forall. intros kv [<-|[<-|[]]]; vm_compute; discriminate.
  - intros [|[|[|d]]]; [left; reflexivity|left; reflexivity|left; reflexivity|]. left. unfold vcoef, P_FloatErr.mcoef. rewrite nth_overflow by (cbn; lia). cbn [m_get m].
    replace (N.of_nat (S (S (S d))) =? 0)%N with false by lia. replace (N.of_nat (S (S (S d))) =? 2)%N with false by lia. reflexivity.
  - rewrite Forall_forall. intros kv [<-|[<-|[]]]; vm_compute; reflexivity.
  - vm_compute; reflexivity.
  - vm_compute; reflexivity.
  - vm_compute; reflexivity.
Qed.

Print Assumptions C84_sparse.
Print Assumptions C84_monomial.
Print Assumptions C84_agree.
Print Assumptions C84_exponent.
Print Assumptions C84_exponent_refuted.
