(** When a coefficient type computes in a commutative ring.

    [lawful O R den]: the operations of [O], whenever they return, agree with the ring [R]
    through the (injective) reading [den].  Proved for overflow-checked integers ([R] = Z),
    wrapping integers ([R] = the type itself), and exact rationals. *)

From Coq Require Import List NArith ZArith Lia Bool Ring QArith Qcanon Arith.
From Coq Require Import ZifyBool ZifyNat ZifyN.
From Verif Require Import Base Num Spec SpecFacts.
Import ListNotations.
Local Open Scope Z_scope.

Record lawful {T : Type} (O : num T) (R : comring) (den : T -> car R) := {
  lw_inj : forall a b, den a = den b -> a = b;
  lw_zero : den (zero O) = r0;
  lw_one : den (one O) = r1;
  lw_is_zero : forall a, is_zero O a = true <-> den a = r0;
  lw_eqb : forall a b, eqb O a b = true <-> den a = den b;
  lw_add : forall a b c, add O a b = Ok c -> den c = radd (den a) (den b);
  lw_sub : forall a b c, sub O a b = Ok c -> den c = rsub (den a) (den b);
  lw_mul : forall a b c, mul O a b = Ok c -> den c = rmul (den a) (den b);
  lw_neg : forall a c, neg O a = Ok c -> den c = ropp (den a);
  lw_upow : forall a e c, (e < 2 ^ 32)%N -> upow O a e = Ok c -> den c = rpow (den a) (N.to_nat e);
  lw_cont : forall n c, (n <= USIZE_MAX)%N -> of_cont O n = Some c -> den c = of_nat (N.to_nat n);
  lw_exact : forall n c, (n <= USIZE_MAX)%N -> of_exact O n = Some c -> den c = of_nat (N.to_nat n);
  lw_cap : (n_max_len O <= 2 ^ 63 - 1)%N   (* at most isize::MAX elements in a Vec *)
}.

(** A list that can be the contents of a [Vec]. *)
Definition vec_ok {T} (O : num T) (l : list T) : Prop := (len l <= n_max_len O)%N.

(** Addition, subtraction, multiplication and negation always return. *)
Record total_ops {T} (O : num T) := {
  to_add : forall a b, exists c, add O a b = Ok c;
  to_sub : forall a b, exists c, sub O a b = Ok c;
  to_mul : forall a b, exists c, mul O a b = Ok c;
  to_neg : forall a, exists c, neg O a = Ok c
}.

(** Exact division by non-zero values. *)
Definition exact_div {T} (O : num T) (R : comring) (den : T -> car R) : Prop :=
  forall a b, is_zero O b = false -> exists c, div O a b = Ok c /\ rmul (den c) (den b) = den a.

(** Truncating division: what is left after taking out the quotient has quotient zero. *)
Definition trunc_div {T} (O : num T) : Prop :=
  forall c b s p r, div O c b = Ok s -> mul O b s = Ok p -> sub O c p = Ok r ->
    exists z, div O r b = Ok z /\ is_zero O z = true.

(** ** Rings *)

Definition Z_ring : comring := MkComring Z 0 1 Z.add Z.mul Z.sub Z.opp InitialRing.Zth.

Lemma wrap_congr t a b : (a mod imod t = b mod imod t) -> wrap t a = wrap t b.
Proof.
  intros H. unfold wrap. f_equal.
  destruct (imin_max t) as (_ & Hm & _).
  rewrite Zminus_mod, H, <- Zminus_mod. reflexivity.
Qed.

Lemma wrap_mod t z : wrap t z mod imod t = z mod imod t.
Proof.
  unfold wrap. destruct (imin_max t) as (_ & Hm & _).
  rewrite Zplus_mod, Zmod_mod, <- Zplus_mod. f_equal. lia.
Qed.

Lemma wrap_congr_iff t a b : wrap t a = wrap t b <-> a mod imod t = b mod imod t.
Proof.
  split; [|apply wrap_congr]. intros H. rewrite <- (wrap_mod t a), <- (wrap_mod t b), H. reflexivity.
Qed.

(** The type's own ring: integers modulo 2^bits. *)
Definition w_add t (a b : int t) := mk_int t (ival a + ival b).
Definition w_mul t (a b : int t) := mk_int t (ival a * ival b).
Definition w_sub t (a b : int t) := mk_int t (ival a - ival b).
Definition w_opp t (a : int t) := mk_int t (- ival a).

Lemma mk_int_congr t a b : a mod imod t = b mod imod t -> mk_int t a = mk_int t b.
Proof. intros H. apply int_eq. simpl. apply wrap_congr, H. Qed.

Lemma w_ring_theory t :
  ring_theory (mk_int t 0) (mk_int t 1) (w_add t) (w_mul t) (w_sub t) (w_opp t) eq.
Proof.
  constructor; intros; unfold w_add, w_mul, w_sub, w_opp; simpl.
  - rewrite <- (mk_int_ival t x) at 2. apply mk_int_congr.
    rewrite Zplus_mod, wrap_mod, <- Zplus_mod. f_equal.
  - f_equal. lia.
  - apply mk_int_congr. rewrite Zplus_mod, wrap_mod, <- Zplus_mod.
    symmetry. rewrite Zplus_mod, wrap_mod, <- Zplus_mod. f_equal. lia.
  - rewrite <- (mk_int_ival t x) at 2. apply mk_int_congr.
    rewrite Zmult_mod, wrap_mod, <- Zmult_mod. f_equal. lia.
  - f_equal. lia.
  - apply mk_int_congr. rewrite Zmult_mod, wrap_mod, <- Zmult_mod.
    symmetry. rewrite Zmult_mod, wrap_mod, <- Zmult_mod. f_equal. lia.
  - apply mk_int_congr. rewrite Zmult_mod, wrap_mod, <- Zmult_mod.
    symmetry. rewrite Zplus_mod, !wrap_mod, <- Zplus_mod. f_equal. lia.
  - apply mk_int_congr. symmetry. rewrite Zplus_mod, wrap_mod, <- Zplus_mod. f_equal.
  - apply mk_int_congr. rewrite Zplus_mod, wrap_mod, <- Zplus_mod. f_equal. lia.
Qed.

Definition w_ring (t : ity) : comring :=
  MkComring (int t) (mk_int t 0) (mk_int t 1) (w_add t) (w_mul t) (w_sub t) (w_opp t) (w_ring_theory t).

Lemma Qc_ring_theory : ring_theory 0%Qc 1%Qc Qcplus Qcmult Qcminus Qcopp eq.
Proof. exact Qcrt. Qed.
Definition Qc_ring : comring :=
  MkComring Qc 0%Qc 1%Qc Qcplus Qcmult Qcminus Qcopp Qc_ring_theory.

(** ** Integers *)

Lemma arith_checked t z c : arith true t z = Ok c <-> in_range t z = true /\ ival c = z.
Proof.
  unfold arith. destruct (in_range t z) eqn:E; split.
  - intros H. inv_ok. split; [reflexivity|]. apply ival_mk_int, E.
  - intros [_ H]. f_equal. apply int_eq. rewrite H. apply ival_mk_int, E.
  - discriminate.
  - intros [H _]. discriminate.
Qed.

Lemma arith_ok chk t z c : arith chk t z = Ok c -> c = mk_int t z.
Proof. unfold arith. destruct (in_range t z), chk; intros H; inv_ok; reflexivity. Qed.

Lemma arith_unchecked t z : arith false t z = Ok (mk_int t z).
Proof. unfold arith. destruct (in_range t z); reflexivity. Qed.

Lemma arith_in_range chk t z : in_range t z = true -> arith chk t z = Ok (mk_int t z).
Proof. unfold arith. intros ->. reflexivity. Qed.

Lemma Z_of_nat_ring n : @of_nat Z_ring n = Z.of_nat n.
Proof. induction n as [|n IH]; cbn [of_nat]; [reflexivity|]. rewrite IH. cbn [radd r1 Z_ring]. lia. Qed.

Lemma Z_rpow_ring x n : @rpow Z_ring x n = x ^ Z.of_nat n.
Proof.
  induction n as [|n IH]; [reflexivity|]. rewrite Nat2Z.inj_succ, Z.pow_succ_r by lia.
  simpl rpow. rewrite IH. reflexivity.
Qed.

Lemma w_of_nat_ring t n : @of_nat (w_ring t) n = mk_int t (Z.of_nat n).
Proof.
  induction n as [|n IH]; [reflexivity|]. cbn [of_nat]. rewrite IH. cbn.
  unfold w_add. apply mk_int_congr. simpl. rewrite Zplus_mod, !wrap_mod, <- Zplus_mod. f_equal. lia.
Qed.

(** Square-and-multiply computes the power wherever multiplication is right. *)
Lemma ipow_loop_spec chk t (R : comring) (den : int t -> car R) :
  (forall a b c, arith chk t (ival a * ival b) = Ok c -> den c = rmul (den a) (den b)) ->
  forall e base acc r, ipow_loop chk t e base acc = Ok r ->
    den r = rmul (den acc) (rpow (den base) (Pos.to_nat e)).
Proof.
  intros Hm. pose proof (r_theory R) as RT. 
  induction e as [e IH|e IH|]; intros base acc r H; simpl in H; inv_ok.
  - apply IH in H. rewrite H, (Hm _ _ _ E), (Hm _ _ _ E0), Pos2Nat.inj_xI.
    cbn [rpow]. rewrite rpow_mul. cbn [rpow]. rewrite !rmul_1_r, rmul_assoc. reflexivity.
  - apply IH in H. rewrite H, (Hm _ _ _ E), Pos2Nat.inj_xO, rpow_mul. cbn [rpow].
    rewrite rmul_1_r. reflexivity.
  - rewrite (Hm _ _ _ H), Pos2Nat.inj_1. cbn [rpow]. rewrite rmul_1_r. reflexivity.
Qed.

Lemma ipow_spec chk t (R : comring) (den : int t -> car R) :
  (forall a b c, arith chk t (ival a * ival b) = Ok c -> den c = rmul (den a) (den b)) ->
  den (mk_int t 1) = r1 ->
  forall e b r, ipow chk t b e = Ok r -> den r = rpow (den b) (N.to_nat e).
Proof.
  intros Hm H1 e b r H. destruct e as [|p]; simpl in H; inv_ok.
  - exact H1.
  - apply (ipow_loop_spec chk t R den Hm) in H. rewrite H, H1, positive_N_nat, rmul_1_l. reflexivity.
Qed.

Lemma iof_usize_spec t n c : (n <= USIZE_MAX)%N -> iof_usize t n = Some c -> ival c = Z.of_N n.
Proof.
  intros Hn. unfold iof_usize.
  assert (HU : Z.of_N n <= 2 ^ 64 - 1) by (unfold USIZE_MAX in Hn; lia).
  destruct t; simpl signed; simpl bits; cbn -[imax mk_int]; intros H;
    try (match type of H with context [if ?b then _ else _] => destruct b eqn:E end);
    try discriminate; injection H as <-; apply ival_mk_int; apply in_range_iff;
    unfold imin, imax in *; simpl signed in *; simpl bits in *; cbn in *; lia.
Qed.

Theorem checked_lawful t : lawful (int_num true t) Z_ring ival.
Proof.
  constructor; simpl.
  - apply int_eq.
  - apply ival_mk_int. apply in_range_iff. pose proof (imin_max t). lia.
  - apply ival_mk_int. apply in_range_iff. pose proof (imin_max t). lia.
  - intros a. lia.
  - intros a b. lia.
  - intros a b c H. apply arith_checked in H. tauto.
  - intros a b c H. apply arith_checked in H. tauto.
  - intros a b c H. apply arith_checked in H. tauto.
  - intros a c H. apply arith_checked in H. tauto.
  - intros a e c He H. unfold iupow in H. rewrite N.mod_small in H by assumption.
    apply (ipow_spec true t Z_ring ival) in H; [exact H| |].
    + intros x y z Hz. apply arith_checked in Hz. simpl. tauto.
    + apply ival_mk_int. apply in_range_iff. pose proof (imin_max t). simpl. lia.
  - intros n c Hn H. rewrite Z_of_nat_ring. rewrite (iof_usize_spec t n c Hn H). lia.
  - intros n c Hn H. rewrite Z_of_nat_ring. rewrite (iof_usize_spec t n c Hn H). lia.
  - destruct t; vm_compute; discriminate.
Qed.

Theorem wrapping_lawful t : lawful (int_num false t) (w_ring t) (fun a => a).
Proof.
  assert (H0 : ival (mk_int t 0) = 0)
    by (apply ival_mk_int, in_range_iff; pose proof (imin_max t); lia).
  constructor; simpl.
  - auto.
  - reflexivity.
  - reflexivity.
  - intros a. split.
    + intros H. apply int_eq. rewrite H0. lia.
    + intros ->. rewrite H0. reflexivity.
  - intros a b. split.
    + intros H. apply int_eq. lia.
    + intros ->. lia.
  - intros a b c H. apply arith_ok in H. exact H.
  - intros a b c H. apply arith_ok in H. exact H.
  - intros a b c H. apply arith_ok in H. exact H.
  - intros a c H. apply arith_ok in H. exact H.
  - intros a e c He H. unfold iupow in H. rewrite N.mod_small in H by assumption.
    apply (ipow_spec false t (w_ring t) (fun a => a)) in H; [exact H| |reflexivity].
    intros x y z Hz. apply arith_ok in Hz. exact Hz.
  - intros n c Hn H. rewrite w_of_nat_ring. apply int_eq. rewrite (iof_usize_spec t n c Hn H).
    rewrite N_nat_Z. symmetry. apply ival_mk_int.
    rewrite <- (iof_usize_spec t n c Hn H). apply ival_ok.
  - intros n c Hn H. rewrite w_of_nat_ring. apply int_eq. rewrite (iof_usize_spec t n c Hn H).
    rewrite N_nat_Z. symmetry. apply ival_mk_int.
    rewrite <- (iof_usize_spec t n c Hn H). apply ival_ok.
  - destruct t; vm_compute; discriminate.
Qed.

Theorem wrapping_total t : total_ops (int_num false t).
Proof. constructor; intros; simpl; rewrite arith_unchecked; eauto. Qed.

(** Truncated division of integers, both modes. *)
Theorem int_trunc_div chk t : trunc_div (int_num chk t).
Proof.
  intros c b s p r Hs Hp Hr. simpl in *. unfold idiv in Hs |- *.
  destruct (Z.eqb_spec (ival b) 0) as [E0|E0]; [discriminate|].
  destruct (in_range t (Z.quot (ival c) (ival b))) eqn:Eq; [|discriminate].
  inv_ok. pose proof (ival_ok c) as Hc. apply in_range_iff in Hc.
  pose proof (Z.quot_rem (ival c) (ival b) E0) as Hqr.
  pose proof (Z.rem_bound_abs (ival c) (ival b) E0) as Hb.
  rewrite (ival_mk_int _ _ Eq) in Hp.
  set (q := Z.quot (ival c) (ival b)) in *. set (m := Z.rem (ival c) (ival b)) in *.
  assert (Hsgn : (0 <= ival c -> 0 <= m <= ival c) /\ (ival c <= 0 -> ival c <= m <= 0)).
  { split; intros Hs.
    - subst m. split; [apply Z.rem_nonneg; assumption|].
      rewrite <- Z.rem_abs_r by assumption. rewrite Z.rem_mod_nonneg by lia.
      apply Z.mod_le; lia.
    - subst m. pose proof (Z.rem_nonpos (ival c) (ival b) E0 Hs). split; [|assumption].
      rewrite <- (Z.opp_involutive (ival c)), Z.rem_opp_l by assumption.
      assert (H1 : Z.rem (- ival c) (ival b) <= - ival c).
      { rewrite <- Z.rem_abs_r by assumption. rewrite Z.rem_mod_nonneg by lia.
        apply Z.mod_le; lia. }
      lia. }
  assert (Hmin : imin t <= 0 <= imax t) by (pose proof (imin_max t); lia).
  assert (Rp : in_range t (ival b * q) = true).
  { apply in_range_iff. destruct (Z.le_ge_cases 0 (ival c)); lia. }
  rewrite arith_in_range in Hp by assumption. inv_ok.
  rewrite (ival_mk_int _ _ Rp) in Hr.
  replace (ival c - ival b * q) with m in Hr by lia.
  assert (Rm : in_range t m = true).
  { apply in_range_iff. destruct (Z.le_ge_cases 0 (ival c)); lia. }
  rewrite arith_in_range in Hr by assumption. inv_ok.
  rewrite (ival_mk_int _ _ Rm).
  replace (Z.quot m (ival b)) with 0.
  2:{ symmetry. apply Z.quot_small_iff; assumption. }
  assert (R0 : in_range t 0 = true) by (apply in_range_iff; lia).
  rewrite R0. exists (mk_int t 0). split; [reflexivity|].
  rewrite (ival_mk_int _ _ R0). reflexivity.
Qed.

(** ** Exact rationals: a coefficient type with exact division (such as num's Ratio). *)

Definition Qc_eqb (a b : Qc) : bool := if Qc_eq_dec a b then true else false.

Fixpoint Qc_of_nat (n : nat) : Qc := match n with O => 0%Qc | S n' => (1 + Qc_of_nat n')%Qc end.
Fixpoint Qc_pow_nat (x : Qc) (n : nat) : Qc := match n with O => 1%Qc | S n' => (x * Qc_pow_nat x n')%Qc end.

Definition Qc_num : num Qc := {|
  n_chk := true;
  n_max_len := (2 ^ 58)%N;
  zero := 0%Qc;
  one := 1%Qc;
  is_zero := fun a => Qc_eqb a 0%Qc;
  add := fun a b => Ok (a + b)%Qc;
  sub := fun a b => Ok (a - b)%Qc;
  mul := fun a b => Ok (a * b)%Qc;
  div := fun a b => if Qc_eqb b 0%Qc then Panic PDivZero else Ok (a / b)%Qc;
  neg := fun a => Ok (- a)%Qc;
  eqb := Qc_eqb;
  is_pos := fun a => if Qclt_le_dec 0 a then true else false;
  absv := fun a => Ok (if Qclt_le_dec a 0 then (- a)%Qc else a);
  is_neg_one := fun a => Qc_eqb a (- (1))%Qc;
  upow := fun a e => Ok (Qc_pow_nat a (N.to_nat e));
  can_negate := true;
  of_cont := fun n => Some (Q2Qc (inject_Z (Z.of_N n)));
  of_exact := fun n => Some (Q2Qc (inject_Z (Z.of_N n)))
|}.

Lemma Qc_eqb_iff a b : Qc_eqb a b = true <-> a = b.
Proof. unfold Qc_eqb. destruct (Qc_eq_dec a b); split; congruence. Qed.

Lemma Qc_of_nat_ring n : @of_nat Qc_ring n = Q2Qc (inject_Z (Z.of_nat n)).
Proof.
  induction n as [|n IH].
  - apply Qc_is_canon. reflexivity.
  - cbn [of_nat]. rewrite IH. rewrite Nat2Z.inj_succ. change (1 + Q2Qc (inject_Z (Z.of_nat n)) = Q2Qc (inject_Z (Z.succ (Z.of_nat n))))%Qc.
    apply Qc_is_canon. unfold Qcplus, Q2Qc. cbn [this].
    rewrite !Qred_correct. unfold Z.succ. rewrite inject_Z_plus. rewrite Qplus_comm. reflexivity.
Qed.

Theorem Qc_lawful : lawful Qc_num Qc_ring (fun a => a).
Proof.
  constructor; simpl.
  - auto.
  - reflexivity.
  - reflexivity.
  - intros a. apply Qc_eqb_iff.
  - apply Qc_eqb_iff.
  - intros; inv_ok; reflexivity.
  - intros; inv_ok; reflexivity.
  - intros; inv_ok; reflexivity.
  - intros; inv_ok; reflexivity.
  - intros a e c _ H. inv_ok. generalize (N.to_nat e) as n. induction n as [|n IH]; [reflexivity|].
    simpl. rewrite IH. reflexivity.
  - intros n c _ H. rewrite Qc_of_nat_ring, N_nat_Z. congruence.
  - intros n c _ H. rewrite Qc_of_nat_ring, N_nat_Z. congruence.
  - vm_compute; discriminate.
Qed.

Theorem Qc_total : total_ops Qc_num.
Proof. constructor; intros; simpl; eauto. Qed.

Theorem Qc_exact_div : exact_div Qc_num Qc_ring (fun a => a).
Proof.
  intros a b Hb. simpl in *. rewrite Hb. eexists. split; [reflexivity|].
  field. intros ->. unfold Qc_eqb in Hb. destruct (Qc_eq_dec 0 0); congruence.
Qed.

Lemma trunc_or_exact {T} (O : num T) R den : lawful O R den -> exact_div O R den ->
  forall c b s p r, is_zero O b = false -> div O c b = Ok s -> mul O b s = Ok p -> sub O c p = Ok r ->
  den r = r0.
Proof.
  intros L X c b s p r Hb Hs Hp Hr.
  destruct (X c b Hb) as (s' & Hs' & He). rewrite Hs in Hs'. inv_ok.
  rewrite (lw_sub _ _ _ L _ _ _ Hr), (lw_mul _ _ _ L _ _ _ Hp), <- He.
  rewrite (rmul_comm (den b)). apply rsub_diag.
Qed.

(** ** When operations return *)

(** [fits]: the ring elements representable in the type.  [+ - * neg] return exactly when
    the exact result is representable. *)
Record fits_ops {T} (O : num T) (R : comring) (den : T -> car R) (fits : car R -> Prop) := {
  fo_den : forall a, fits (den a);
  fo_add : forall a b, (exists c, add O a b = Ok c) <-> fits (radd (den a) (den b));
  fo_sub : forall a b, (exists c, sub O a b = Ok c) <-> fits (rsub (den a) (den b));
  fo_mul : forall a b, (exists c, mul O a b = Ok c) <-> fits (rmul (den a) (den b));
  fo_neg : forall a, (exists c, neg O a = Ok c) <-> fits (ropp (den a))
}.

Theorem total_fits {T} (O : num T) R den : total_ops O -> fits_ops O R den (fun _ => True).
Proof.
  intros H. constructor; auto; intros; split; auto; intros _.
  - apply (to_add _ H). - apply (to_sub _ H). - apply (to_mul _ H). - apply (to_neg _ H).
Qed.

Lemma arith_checked_ex t z : (exists c, arith true t z = Ok c) <-> in_range t z = true.
Proof.
  split.
  - intros (c & H). apply arith_checked in H. tauto.
  - intros H. exists (mk_int t z). apply arith_in_range, H.
Qed.

(** Overflow-checked integers: representable = in the range of the type. *)
Theorem checked_fits t : fits_ops (int_num true t) Z_ring ival (fun z => in_range t z = true).
Proof.
  constructor; simpl; intros.
  - apply ival_ok.
  - apply arith_checked_ex.
  - apply arith_checked_ex.
  - apply arith_checked_ex.
  - apply arith_checked_ex.
Qed.

(** Every coefficient operation terminates. *)
Record prompt {T} (O : num T) := {
  pr_add : forall a b, add O a b <> Fuel;
  pr_sub : forall a b, sub O a b <> Fuel;
  pr_mul : forall a b, mul O a b <> Fuel;
  pr_div : forall a b, div O a b <> Fuel;
  pr_neg : forall a, neg O a <> Fuel;
  pr_upow : forall a e, upow O a e <> Fuel
}.

Lemma arith_prompt chk t z : arith chk t z <> Fuel.
Proof. unfold arith. destruct (in_range t z); [|destruct chk]; discriminate. Qed.

Lemma bind_prompt {A B} (m : res A) (f : A -> res B) : m <> Fuel -> (forall a, m = Ok a -> f a <> Fuel) -> bind m f <> Fuel.
Proof. destruct m; simpl; intros H1 H2; try congruence. apply H2. reflexivity. Qed.

Theorem int_prompt chk t : prompt (int_num chk t).
Proof.
  constructor; simpl; intros; try apply arith_prompt.
  - unfold idiv. destruct (_ =? _); [discriminate|]. destruct in_range; discriminate.
  - unfold iupow, ipow. destruct (e mod 2 ^ 32)%N as [|q]; [discriminate|].
    generalize (mk_int t 1) as acc. revert a. induction q as [q IH|q IH|]; intros a acc; simpl;
      repeat (apply bind_prompt; [apply arith_prompt|intros]); auto. apply arith_prompt.
Qed.

Theorem Qc_prompt : prompt Qc_num.
Proof. constructor; simpl; intros; try discriminate. destruct Qc_eqb; discriminate. Qed.
