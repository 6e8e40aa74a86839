(** Properties C47 and C48: integer square roots and conversions from usize. *)

From Coq Require Import List NArith ZArith Reals Lia Lra Bool.
From Coq Require Import ZifyBool ZifyNat ZifyN.
From Flocq Require Import Core BinarySingleNaN.
From Verif Require Import Base Num Laws Numerics NumericsFacts Floats FloatFacts.
Import ListNotations.
Local Open Scope Z_scope.

(** ** C47 *)

(** [r] is the largest integer whose square is at most [n]. *)
Definition floor_sqrt (n r : Z) : Prop := 0 <= r /\ r * r <= n /\ forall q, q * q <= n -> q <= r.

Lemma Zsqrt_floor n : 0 <= n -> floor_sqrt n (Z.sqrt n).
Proof.
  intros Hn. pose proof (Z.sqrt_spec n Hn) as H. pose proof (Z.sqrt_nonneg n). unfold Z.succ in H.
  split; [lia|]. split; [lia|]. intros q Hq. apply Z.nlt_ge. intros Hlt. nia.
Qed.

(** 67 rounds of either loop are enough for every width. *)
Lemma half_bits_small t : (Z.to_nat (half_bits t) + 3 <= 67)%nat.
Proof. destruct t; vm_compute; lia. Qed.

Theorem C47_unsigned : forall chk t, signed t = false -> forall (n : int t) fuel, (67 <= fuel)%nat ->
  exists r, abs_sqrt_int chk t fuel n = Ok r /\ floor_sqrt (ival n) (ival r).
Proof.
  intros chk t Hu n fuel Hf. unfold abs_sqrt_int. rewrite Hu.
  pose proof (half_bits_small t). destruct (abs_sqrt_u_ok chk t Hu fuel n ltac:(lia)) as (r & H1 & H2).
  exists r. split; [exact H1|]. rewrite H2. apply Zsqrt_floor. pose proof (uint_range t Hu n). lia.
Qed.

Lemma unsigned_of_facts t : signed t = true ->
  signed (unsigned_of t) = false /\ imax (unsigned_of t) + 1 = - 2 * imin t /\ imax t = - imin t - 1 /\ 128 <= - imin t.
Proof. destruct t; intros H; try discriminate H; vm_compute; repeat split; discriminate. Qed.

Theorem C47_signed : forall chk t, signed t = true -> forall (n : int t) fuel, (67 <= fuel)%nat ->
  chk = false \/ ival n <> imin t ->
  exists r, abs_sqrt_int chk t fuel n = Ok r /\ floor_sqrt (Z.abs (ival n)) (ival r).
Proof.
  intros chk t Hs n fuel Hf Hc. unfold abs_sqrt_int. rewrite Hs.
  destruct (unsigned_of_facts t Hs) as (Hu & M1 & M2 & M3).
  pose proof (ival_ok n) as Rn. apply in_range_iff in Rn.
  assert (Ha : exists a, arith chk t (Z.abs (ival n)) = Ok a /\
                 ival (icast (unsigned_of t) a) = Z.abs (ival n)).
  { assert (Ru : in_range (unsigned_of t) (Z.abs (ival n)) = true).
    { apply in_range_iff. unfold imin at 1. rewrite Hu. lia. }
    destruct (Z.eq_dec (ival n) (imin t)) as [E|E].
    - destruct Hc as [Hc|Hc]; [subst chk|contradiction]. rewrite arith_unchecked. eexists. split; [reflexivity|].
      rewrite <- (ival_mk_int _ _ Ru) at 2. unfold icast. f_equal. apply mk_int_congr.
      replace (imod (unsigned_of t)) with (imod t) by (destruct t; try discriminate Hs; reflexivity).
      simpl. apply wrap_mod.
    - assert (R : in_range t (Z.abs (ival n)) = true) by (apply in_range_iff; lia).
      rewrite arith_in_range by exact R. eexists. split; [reflexivity|]. unfold icast. rewrite (ival_mk_int _ _ R).
      apply ival_mk_int, Ru. }
  destruct Ha as (a & -> & Ea). cbn [bind].
  pose proof (half_bits_small (unsigned_of t)).
  destruct (abs_sqrt_u_ok chk _ Hu fuel (icast (unsigned_of t) a) ltac:(lia)) as (r & -> & Er). cbn [bind].
  eexists. split; [reflexivity|]. rewrite Ea in Er.
  pose proof (Zsqrt_floor (Z.abs (ival n)) ltac:(lia)) as Fl. rewrite <- Er in Fl.
  unfold icast. rewrite ival_mk_int; [exact Fl|]. apply in_range_iff. destruct Fl as (F1 & F2 & _). nia.
Qed.

(** The one exception: [abs] of the minimum overflows when overflow checks are on. *)
Theorem C47_signed_min_checked : forall t, signed t = true -> forall (n : int t) fuel, ival n = imin t ->
  abs_sqrt_int true t fuel n = Panic POverflow.
Proof.
  intros t Hs n fuel Hn. unfold abs_sqrt_int. rewrite Hs. destruct (unsigned_of_facts t Hs) as (_ & _ & M2 & M3).
  unfold arith. destruct (in_range t (Z.abs (ival n))) eqn:E; [|reflexivity].
  apply in_range_iff in E. lia.
Qed.

Example C47_case :
  rmap ival (abs_sqrt_int true U8 67 (mk_int U8 255)) = Ok 15 /\
  rmap ival (abs_sqrt_int true U128 67 (mk_int U128 (2 ^ 128 - 1))) = Ok (2 ^ 64 - 1) /\
  rmap ival (abs_sqrt_int true I64 67 (mk_int I64 (-99))) = Ok 9 /\
  rmap ival (abs_sqrt_int false I8 67 (mk_int I8 (-128))) = Ok 11 /\
  rmap ival (abs_sqrt_int true I8 67 (mk_int I8 (-128))) = Panic POverflow.
Proof. vm_compute. auto. Qed.

(** ** C48 *)

(** Integer types: accepted exactly when in range, and then exact.  [isize] and [usize] have no
    such conversion. *)
Theorem C48_integers : forall chk t, t <> Isize -> t <> Usize -> forall n, (n <= USIZE_MAX)%N ->
  (forall v, of_cont (int_num chk t) n = Some v -> ival v = Z.of_N n) /\
  (forall v, of_exact (int_num chk t) n = Some v -> ival v = Z.of_N n) /\
  ((exists v, of_cont (int_num chk t) n = Some v) <-> Z.of_N n <= imax t) /\
  ((exists v, of_exact (int_num chk t) n = Some v) <-> Z.of_N n <= imax t).
Proof.
  intros chk t Ht1 Ht2 n Hn. cbn [of_cont of_exact int_num].
  assert (K : (exists v, iof_usize t n = Some v) <-> Z.of_N n <= imax t).
  { unfold USIZE_MAX in Hn. unfold iof_usize.
    assert (G : forall t' : ity, (exists v, (if imax t' <? Z.of_N n then None else Some (mk_int t' (Z.of_N n))) = Some v)
                  <-> Z.of_N n <= imax t').
    { intros t'. destruct (Z.ltb_spec (imax t') (Z.of_N n)) as [H|H].
      - split; [intros (v & E); discriminate E|lia].
      - split; [intros _; exact H|eauto]. }
    destruct t; try contradiction; cbn -[imax mk_int]; try apply G; (split; [intros _; unfold imax; cbn; lia|eauto]). }
  split; [|split; [|split]]; try exact K; intros v; apply iof_usize_spec, Hn.
Qed.

(** f32 / f64, "continuous" conversion: accepted exactly up to 2^24 / 2^52, the result is exact, and
    so is every smaller number. *)
Theorem C48_float_cont : forall f n,
  ((exists v, f_of_cont f n = Some v) <-> (n <= match f with F32 => 2 ^ 24 | F64 => 2 ^ 52 end)%N) /\
  (forall v, f_of_cont f n = Some v -> is_finite v = true /\ B2R v = IZR (Z.of_N n) /\
     forall m, (m <= n)%N -> exists w, f_of_cont f m = Some w /\ is_finite w = true /\ B2R w = IZR (Z.of_N m)).
Proof.
  intros f n.
  assert (El : f_cont_limit f = match f with F32 => 2 ^ 24 | F64 => 2 ^ 52 end%N) by (destruct f; reflexivity).
  assert (Ex : forall m, (m <= f_cont_limit f)%N -> exists w, f_of_cont f m = Some w /\ is_finite w = true /\ B2R w = IZR (Z.of_N m)).
  { intros m Hm. unfold f_of_cont. destruct (N.ltb_spec (f_cont_limit f) m); [lia|]. eexists. split; [reflexivity|].
    destruct (f_of_Z_small f (Z.of_N m)) as [A B]; [|split; assumption].
    rewrite El in Hm. destruct f; cbn; lia. }
  rewrite <- El. split.
  - split.
    + intros (v & H). unfold f_of_cont in H. destruct (N.ltb_spec (f_cont_limit f) n); [discriminate|assumption].
    + intros H. destruct (Ex n H) as (w & E & _). eauto.
  - intros v H. assert (Hn : (n <= f_cont_limit f)%N).
    { unfold f_of_cont in H. destruct (N.ltb_spec (f_cont_limit f) n); [discriminate|assumption]. }
    destruct (Ex n Hn) as (w & E & A & B). rewrite E in H. injection H as <-.
    split; [exact A|]. split; [exact B|]. intros m Hm. apply Ex. lia.
Qed.

(** The f32 limit is the best possible: the next integer is not an f32 at all. *)
Theorem C48_f32_limit_tight : forall x : flt F32, is_finite x = true -> B2R x <> IZR (2 ^ 24 + 1).
Proof.
  intros x Hx E. destruct (f_of_Z_representable F32 _ x Hx E) as [H _].
  assert (K : B2SF (f_of_Z F32 (2 ^ 24 + 1)) = B2SF (f_of_Z F32 (2 ^ 24))) by (vm_compute; reflexivity).
  apply B2SF_inj in K. rewrite K in H. destruct (f_of_Z_small F32 (2 ^ 24)) as [H2 _]; [vm_compute; discriminate|].
  rewrite H2 in H. apply eq_IZR in H. discriminate H.
Qed.

(** f32 / f64, "exact" conversion: below usize::MAX it succeeds exactly when the number is
    representable, and is then exact. *)
Theorem C48_float_exact_partial : forall f n, (n < USIZE_MAX)%N ->
  ((exists v, f_of_exact f n = Some v) <-> exists x : flt f, is_finite x = true /\ B2R x = IZR (Z.of_N n)) /\
  (forall v, f_of_exact f n = Some v -> is_finite v = true /\ B2R v = IZR (Z.of_N n)).
Proof.
  intros f n Hn.
  assert (Hr : 0 <= Z.of_N n <= 2 ^ 64) by (unfold USIZE_MAX in Hn; lia).
  destruct (f_of_Z_int f (Z.of_N n) Hr) as (Hfin & w & Ew).
  assert (V : forall v, f_of_exact f n = Some v -> is_finite v = true /\ B2R v = IZR (Z.of_N n)).
  { intros v H. unfold f_of_exact in H. destruct (N.eqb_spec (f_to_usize (f_of_Z f (Z.of_N n))) n) as [E|E]; [|discriminate].
    injection H as <-. split; [exact Hfin|]. rewrite Ew. f_equal.
    pose proof (Btrunc_int f _ _ Ew) as Ht.
    destruct (f_of_Z f (Z.of_N n)) as [s|s| |s m e Hb] eqn:K; try discriminate Hfin.
    - simpl in *. subst w n. reflexivity.
    - unfold f_to_usize in E. rewrite Ht in E.
      destruct (N.eq_dec n 0) as [En|En]; [|lia].
      exfalso. rewrite En in K. assert (K0 : f_of_Z f (Z.of_N 0) = fzero f) by reflexivity. rewrite K0 in K. discriminate K. }
  split; [|exact V]. split.
  - intros (v & H). exists v. apply V, H.
  - intros (x & H1 & H2). destruct (f_of_Z_representable f _ x H1 H2) as [A B]. unfold f_of_exact.
    rewrite (f_to_usize_int f (f_of_Z f (Z.of_N n)) n B A) by lia. rewrite N.eqb_refl. eauto.
Qed.

(** At usize::MAX it claims success with an inexact value: 2^64 for 2^64 - 1. *)
Theorem C48_float_exact_refuted : forall f, exists v, f_of_exact f USIZE_MAX = Some v /\
  is_finite v = true /\ B2R v = IZR (2 ^ 64) /\ B2R v <> IZR (Z.of_N USIZE_MAX).
Proof.
  intros f. exists (f_of_Z f (Z.of_N USIZE_MAX)).
  assert (E : f_of_Z f (Z.of_N USIZE_MAX) = f_of_Z f (2 ^ 64)).
  { apply B2SF_inj. destruct f; vm_compute; reflexivity. }
  assert (V : B2R (f_of_Z f (2 ^ 64)) = IZR (2 ^ 64) /\ is_finite (f_of_Z f (2 ^ 64)) = true).
  { apply f_of_Z_format.
    - replace (IZR (2 ^ 64)) with (bpow radix2 64) by reflexivity. apply generic_format_bpow. destruct f; vm_compute; discriminate.
    - apply small_lt_emax. vm_compute. discriminate. }
  destruct V as [V1 V2]. split; [|rewrite E; split; [exact V2|split; [exact V1|]]].
  - unfold f_of_exact. replace (f_to_usize (f_of_Z f (Z.of_N USIZE_MAX))) with USIZE_MAX by (destruct f; vm_compute; reflexivity).
    reflexivity.
  - rewrite V1. intros H. apply eq_IZR in H. discriminate H.
Qed.

Example C48_case :
  option_map ival (of_cont (int_num true I8) 127) = Some 127 /\ of_cont (int_num true I8) 128 = None /\
  option_map (fun v => B2SF v) (f_of_cont F32 (2 ^ 24)) = Some (SpecFloat.S754_finite false 8388608 1) /\
  f_of_cont F32 (2 ^ 24 + 1) = None /\ f_of_exact F32 (2 ^ 24 + 1) = None /\
  option_map (fun v => B2SF v) (f_of_exact F32 (2 ^ 24 + 2)) = Some (SpecFloat.S754_finite false 8388609 1).
Proof. vm_compute. auto 10. Qed.

Print Assumptions C47_unsigned.
Print Assumptions C48_integers.
Print Assumptions C48_float_exact_partial.
