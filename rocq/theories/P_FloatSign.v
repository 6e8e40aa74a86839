(** Property C108: signs, roots and root-free intervals certified by computed float values. *)

From Coq Require Import List NArith ZArith Reals Lia Lra Psatz Bool Arith Rsqrt_def.
From Coq Require Import ZifyBool ZifyNat ZifyN.
From Flocq Require Import Core BinarySingleNaN.
From Verif Require Import Base Num Spec SpecFacts Laws Dense DenseFacts DenseArith DenseCalc RealNum Floats FloatFacts FloatErr FloatEval FloatCoef Coef P_FloatErr P_FloatBound.
Import ListNotations.
Local Open Scope R_scope.

(** ** Specification *)

(** [L] has the absolute values of the coefficients of [l], and as many of them. *)
Definition absolute {f} (l L : list (flt f)) : Prop :=
  length L = length l /\ forall d, is_finite (vcoef l d) = true /\ is_finite (vcoef L d) = true /\ B2R (vcoef L d) = Rabs (B2R (vcoef l d)).

(** What underflow can contribute for [n] coefficients at the point [x]. *)
Definition underflow (f : fty) (x : R) (n : nat) : R := (1 + uro f) ^ (2 * (n - 1)) * tiny f x (n - 1).

(** The error of the computed value of a polynomial with [n] coefficients at [x] whose absolute values give the computed value [Y]. *)
Definition radius (f : fty) (n : nat) (x Y : R) : R :=
  let m := INR (2 * (n - 1)) * uro f in m / (1 - 2 * m) * (Y + underflow f x n) + underflow f x n.

(** The real number [v] is the exact value at the real number [x]. *)
Definition exact_value {f} (l : list (flt f)) (x v : R) : Prop := @is_value R_ring (rpoly l) x v.

(** ** Lemmas *)
Section Facts.
Context {f : fty}.
Implicit Types l L : list (flt f).

Lemma hv_continuity (den : flt f -> R) l : continuity (fun z => hv den l z).
Proof.
  unfold hv. cut (forall g : R -> R, continuity g -> continuity (fun z => fold_left (fun s c => s * z + den c) l (g z))).
  - intros H. apply (H (fun _ => 0)). apply continuity_const. intros ? ?. reflexivity.
  - induction l as [|c l IH]; intros g Hg; [exact Hg|]. cbn [fold_left]. apply (IH (fun z => g z * z + den c)).
    apply continuity_plus; [|apply continuity_const; intros ? ?; reflexivity]. apply continuity_mult; [exact Hg|]. apply derivable_continuous, derivable_id.
Qed.

Lemma exact_hv l x : exact_value l x (hv (fun a : flt f => B2R a) l x).
Proof. unfold exact_value. eapply is_value_ext; [|apply hv_value]. intros d. apply rpoly_dcoef. Qed.
Lemma exact_fun l x v w : exact_value l x v -> exact_value l x w -> v = w.
Proof. exact (@is_value_fun R_ring _ _ _ _). Qed.

Lemma hv_abs_bound l (z X : R) : Rabs z <= X -> Rabs (hv (fun a : flt f => B2R a) l z) <= hv (fun a : flt f => Rabs (B2R a)) l X.
Proof.
  intros H. induction l as [|c l IH] using rev_ind; [unfold hv; cbn; rewrite Rabs_R0; lra|]. rewrite !hv_snoc.
  eapply Rle_trans; [apply Rabs_triang|]. rewrite Rabs_mult.
  assert (Rabs (hv (fun a : flt f => B2R a) l z) * Rabs z <= hv (fun a : flt f => Rabs (B2R a)) l X * X) by (apply Rmult_le_compat; auto using Rabs_pos). lra.
Qed.

Lemma tiny_pos x n : 0 <= x -> 0 <= tiny f x n.
Proof. intros H. apply Rmult_le_pos; [apply Rlt_le, eta_pos|]. apply (geo_pos x n H). Qed.
Lemma underflow_pos x n : 0 <= x -> 0 <= underflow f x n.
Proof. intros H. apply Rmult_le_pos; [|apply tiny_pos, H]. apply pow_le. pose proof (@uro_pos f). lra. Qed.

(** The exact value of the absolute values, from the computed one. *)
Lemma exact_abs chk powi l L (X Y : flt f) : absolute l L -> is_finite X = true -> 0 <= B2R X ->
  dense_eval (float_num chk f powi) L X = Ok Y -> is_finite Y = true ->
  let g := (1 + uro f) ^ (2 * (length l - 1)) - 1 in
  (1 - g) * hv (fun a : flt f => Rabs (B2R a)) l (B2R X) <= B2R Y + underflow f (B2R X) (length l).
Proof.
  intros [Hlen HL] FX PX HY FY g.
  assert (HA : @is_value R_ring (rpoly_abs l) (B2R X) (hv (fun a : flt f => Rabs (B2R a)) l (B2R X))).
  { eapply is_value_ext; [|apply hv_value]. intros d. apply rpoly_abs_dcoef. }
  assert (H1 : @is_value R_ring (rpoly L) (B2R X) (hv (fun a : flt f => Rabs (B2R a)) l (B2R X))).
  { eapply is_value_ext; [|exact HA]. intros d. unfold rpoly, rpoly_abs. symmetry. apply HL. }
  assert (H2 : @is_value R_ring (rpoly_abs L) (Rabs (B2R X)) (hv (fun a : flt f => Rabs (B2R a)) l (B2R X))).
  { rewrite (Rabs_pos_eq _ PX). eapply is_value_ext; [|exact HA]. intros d. unfold rpoly_abs. destruct (HL d) as (_ & _ & E). rewrite E, Rabs_Rabsolu. reflexivity. }
  pose proof (C65_error chk f powi L X Y _ _ HY FY FX H1 H2) as K. cbv zeta in K. rewrite Hlen, (Rabs_pos_eq _ PX) in K. fold g in K.
  fold (underflow f (B2R X) (length l)) in K. apply Rabs_le_inv in K. lra.
Qed.

Lemma gamma_half n : INR n * uro f < / 2 -> let m := INR n * uro f in let g := (1 + uro f) ^ n - 1 in
  0 <= g < 1 /\ g / (1 - g) <= m / (1 - 2 * m).
Proof.
  intros H m g. assert (m0 : 0 <= m) by (apply Rmult_le_pos; [apply pos_INR|apply Rlt_le, uro_pos]). fold m in H.
  pose proof (gamma_le (uro f) (@uro_pos f) n ltac:(fold m; lra)) as G. fold m in G. fold g in G.
  assert (g0 : 0 <= g) by (unfold g; pose proof (pow_ge_1 (uro f) (@uro_pos f) n); lra).
  assert (G1 : g * (1 - m) <= m).
  { apply Rmult_le_reg_r with (/ (1 - m)); [apply Rinv_0_lt_compat; lra|]. rewrite Rmult_assoc, Rinv_r by lra. unfold Rdiv in G. lra. }
  assert (g1 : g < 1) by nra. split; [lra|].
  apply Rmult_le_reg_r with ((1 - g) * (1 - 2 * m)); [apply Rmult_lt_0_compat; lra|].
  replace (g / (1 - g) * ((1 - g) * (1 - 2 * m))) with (g * (1 - 2 * m)) by (field; lra).
  replace (m / (1 - 2 * m) * ((1 - g) * (1 - 2 * m))) with (m * (1 - g)) by (field; lra). nra.
Qed.
End Facts.

(** ** C108 *)

(** The error of a computed value is bounded by a quantity made from the computed value for the absolute values. *)
Theorem C108_error : forall chk f powi (l L : list (flt f)) (x X y Y : flt f) v, let O := float_num chk f powi in
  absolute l L -> is_finite x = true -> is_finite X = true -> B2R X = Rabs (B2R x) ->
  dense_eval O l x = Ok y -> dense_eval O L X = Ok Y -> is_finite Y = true ->
  INR (2 * (length l - 1)) * uro f < / 2 -> exact_value l (B2R x) v ->
  Rabs (B2R y - v) <= radius f (length l) (B2R X) (B2R Y).
Proof.
  intros chk f powi l L x X y Y v O HL Fx FX EX Hy HY FY Hn Hv.
  assert (PX : 0 <= B2R X) by (rewrite EX; apply Rabs_pos).
  assert (Fy : is_finite y = true).
  { apply (C107_eval chk f powi l L x X y Y); try assumption.
    - intros d. destruct (proj2 HL d) as (F1 & F2 & E). split; [exact F1|]. split; [exact F2|]. lra.
    - split; [exact Fx|]. split; [exact FX|]. lra. }
  pose proof (exact_abs chk powi l L X Y HL FX PX HY FY) as KA. cbv zeta in KA.
  set (A := hv (fun a : flt f => Rabs (B2R a)) l (B2R X)) in *.
  assert (HA : @is_value R_ring (rpoly_abs l) (Rabs (B2R x)) A).
  { rewrite <- EX. eapply is_value_ext; [|apply hv_value]. intros d. apply rpoly_abs_dcoef. }
  pose proof (C65_error chk f powi l x y v A Hy Fy Fx Hv HA) as K. cbv zeta in K. rewrite <- EX in K. fold (underflow f (B2R X) (length l)) in K.
  destruct (gamma_half (f := f) (2 * (length l - 1)) Hn) as [[G0 G1] G2]. unfold radius. cbv zeta.
  set (n := (2 * (length l - 1))%nat) in *. set (g := (1 + uro f) ^ n - 1) in *. set (m := INR n * uro f) in *. set (T := underflow f (B2R X) (length l)) in *.
  assert (A0 : 0 <= A) by (apply (hv_abs_pos (fun a : flt f => B2R a)), PX).
  assert (YT : 0 <= B2R Y + T) by (eapply Rle_trans; [|exact KA]; apply Rmult_le_pos; lra).
  assert (g * A <= m / (1 - 2 * m) * (B2R Y + T)).
  { eapply Rle_trans; [|apply Rmult_le_compat_r; [exact YT|exact G2]].
    apply Rle_trans with (g / (1 - g) * ((1 - g) * A)); [right; field; lra|]. apply Rmult_le_compat_l; [|exact KA].
    apply Rmult_le_pos; [exact G0|]. apply Rlt_le, Rinv_0_lt_compat. lra. }
  lra.
Qed.

(** A computed value above this error has the sign of the exact value. *)
Theorem C108_sign : forall chk f powi (l L : list (flt f)) (x X y Y : flt f) v, let O := float_num chk f powi in
  absolute l L -> is_finite x = true -> is_finite X = true -> B2R X = Rabs (B2R x) ->
  dense_eval O l x = Ok y -> dense_eval O L X = Ok Y -> is_finite Y = true ->
  INR (2 * (length l - 1)) * uro f < / 2 -> exact_value l (B2R x) v ->
  radius f (length l) (B2R X) (B2R Y) < Rabs (B2R y) ->
  (0 < B2R y <-> 0 < v) /\ (B2R y < 0 <-> v < 0) /\ v <> 0.
Proof.
  intros chk f powi l L x X y Y v O HL Fx FX EX Hy HY FY Hn Hv Hr.
  pose proof (C108_error chk f powi l L x X y Y v HL Fx FX EX Hy HY FY Hn Hv) as K. apply Rabs_le_inv in K.
  unfold Rabs in Hr. destruct (Rcase_abs (B2R y)); repeat split; intros; lra.
Qed.

(** Two such values of opposite signs enclose a root. *)
Theorem C108_root : forall chk f powi (l L : list (flt f)) (x1 X1 y1 Y1 x2 X2 y2 Y2 : flt f), let O := float_num chk f powi in
  absolute l L -> INR (2 * (length l - 1)) * uro f < / 2 ->
  is_finite x1 = true -> is_finite X1 = true -> B2R X1 = Rabs (B2R x1) ->
  is_finite x2 = true -> is_finite X2 = true -> B2R X2 = Rabs (B2R x2) ->
  dense_eval O l x1 = Ok y1 -> dense_eval O L X1 = Ok Y1 -> is_finite Y1 = true ->
  dense_eval O l x2 = Ok y2 -> dense_eval O L X2 = Ok Y2 -> is_finite Y2 = true ->
  radius f (length l) (B2R X1) (B2R Y1) < Rabs (B2R y1) -> radius f (length l) (B2R X2) (B2R Y2) < Rabs (B2R y2) ->
  B2R x1 < B2R x2 -> B2R y1 * B2R y2 < 0 ->
  exists z, B2R x1 < z < B2R x2 /\ exact_value l z 0.
Proof.
  intros chk f powi l L x1 X1 y1 Y1 x2 X2 y2 Y2 O HL Hn F1 G1 E1 F2 G2 E2 Hy1 HY1 FY1 Hy2 HY2 FY2 R1 R2 Hlt Hneg.
  set (h := fun z => hv (fun a : flt f => B2R a) l z).
  destruct (C108_sign chk f powi l L x1 X1 y1 Y1 _ HL F1 G1 E1 Hy1 HY1 FY1 Hn (exact_hv l (B2R x1)) R1) as (P1 & N1 & Z1).
  destruct (C108_sign chk f powi l L x2 X2 y2 Y2 _ HL F2 G2 E2 Hy2 HY2 FY2 Hn (exact_hv l (B2R x2)) R2) as (P2 & N2 & Z2).
  fold (h (B2R x1)) in *. fold (h (B2R x2)) in *.
  assert (S : h (B2R x1) * h (B2R x2) <= 0).
  { destruct (Rtotal_order (B2R y1) 0) as [A|[A|A]]; destruct (Rtotal_order (B2R y2) 0) as [B|[B|B]]; try (exfalso; nra).
    - pose proof (proj1 N1 A). pose proof (proj1 P2 B). nra.
    - pose proof (proj1 P1 A). pose proof (proj1 N2 B). nra. }
  destruct (IVT_cor h (B2R x1) (B2R x2) (hv_continuity _ l) ltac:(lra) S) as (z & [K1 K2] & Hz).
  exists z. split.
  - split; [destruct (Req_dec z (B2R x1)) as [E|E]|destruct (Req_dec z (B2R x2)) as [E|E]]; try lra; exfalso; rewrite E in Hz; contradiction.
  - rewrite <- Hz. apply exact_hv.
Qed.

(** There is no root near zero if the constant coefficient exceeds the computed value of the absolute values of the others. *)
Theorem C108_no_root : forall chk f powi (l L : list (flt f)) (k X Y : flt f) z, let O := float_num chk f powi in
  absolute (l ++ [fzero f]) (L ++ [fzero f]) -> is_finite X = true ->
  dense_eval O (L ++ [fzero f]) X = Ok Y -> is_finite Y = true ->
  INR (2 * length l) * uro f < / 2 ->
  (1 - INR (2 * length l) * uro f) / (1 - 2 * (INR (2 * length l) * uro f)) * (B2R Y + underflow f (B2R X) (S (length l))) < Rabs (B2R k) ->
  Rabs z <= B2R X -> ~ exact_value (l ++ [k]) z 0.
Proof.
  intros chk f powi l L k X Y z O HL FX HY FY Hn HK Hz H0.
  assert (PX : 0 <= B2R X) by (pose proof (Rabs_pos z); lra).
  pose proof (exact_abs chk powi _ _ X Y HL FX PX HY FY) as KA. cbv zeta in KA.
  assert (EL : length (l ++ [fzero f]) = S (length l)) by (rewrite app_length; cbn; lia). rewrite EL in KA.
  replace (2 * (S (length l) - 1))%nat with (2 * length l)%nat in KA by lia.
  pose proof (hv_abs_bound (l ++ [fzero f]) z (B2R X) Hz) as KB.
  set (A := hv (fun a : flt f => Rabs (B2R a)) (l ++ [fzero f]) (B2R X)) in *.
  pose proof (exact_fun _ _ _ _ (exact_hv (l ++ [k]) z) H0) as E. rewrite hv_snoc in E. rewrite hv_snoc in KB. change (B2R (fzero f)) with 0 in KB.
  set (w := hv (fun a : flt f => B2R a) l z * z) in *.
  assert (Kk : Rabs (B2R k) <= A) by (replace (B2R k) with (- (w + 0)) by lra; rewrite Rabs_Ropp; exact KB).
  destruct (gamma_half (f := f) (2 * length l) Hn) as [[G0 G1] G2].
  set (m := INR (2 * length l) * uro f) in *. set (g := (1 + uro f) ^ (2 * length l) - 1) in *. set (T := underflow f (B2R X) (S (length l))) in *.
  assert (A0 : 0 <= A) by (apply (hv_abs_pos (fun a : flt f => B2R a)), PX).
  assert (YT : 0 <= B2R Y + T) by (eapply Rle_trans; [|exact KA]; apply Rmult_le_pos; lra).
  assert (HA : A <= / (1 - g) * (B2R Y + T)).
  { apply Rmult_le_reg_l with (1 - g); [lra|]. rewrite <- Rmult_assoc, Rinv_r by lra. lra. }
  assert (I1 : / (1 - g) = 1 + g / (1 - g)) by (field; lra).
  assert (I2 : (1 - m) / (1 - 2 * m) = 1 + m / (1 - 2 * m)) by (field; lra).
  assert (/ (1 - g) * (B2R Y + T) <= (1 - m) / (1 - 2 * m) * (B2R Y + T)) by (apply Rmult_le_compat_r; lra).
  lra.
Qed.

(** x^2 - 2: computed values at 1 and 2 certify a root between them, and another one certifies that there is none
    between -1 and 1. *)
Lemma eta_small : eta F64 <= / 64.
Proof.
  unfold eta. replace (/ 64) with (/ 2 * bpow radix2 (-5)) by (cbn; lra). apply Rmult_le_compat_l; [lra|]. apply bpow_le. vm_compute. discriminate.
Qed.
Lemma small_radius Y : 0 <= Y <= 6 -> forall x, 0 <= x <= 2 -> radius F64 3 x Y < / 2 /\ underflow F64 x 3 < / 16.
Proof.
  intros HY x Hx. pose proof eta_small as E. pose proof (@eta_pos F64) as E0. pose proof (@uro_small F64) as U. pose proof (@uro_pos F64) as U0.
  assert (T : 0 <= underflow F64 x 3 < / 16).
  { unfold underflow, tiny. cbn [Nat.sub Nat.mul Nat.add sumn radd R_ring r0 pow].
    set (u := uro F64) in *. assert (u <= / 16777216) by exact U.
    assert (B1 : 1 <= (1 + u) * ((1 + u) * ((1 + u) * ((1 + u) * 1))) <= 1 + / 1000) by nra.
    assert (B2 : 0 <= eta F64 * (0 + 1 + x * 1) <= 3 / 64) by nra.
    set (a := (1 + u) * ((1 + u) * ((1 + u) * ((1 + u) * 1)))) in *. set (b := eta F64 * (0 + 1 + x * 1)) in *. nra. }
  split; [|apply T]. unfold radius. change (2 * (3 - 1))%nat with 4%nat. cbv zeta. replace (INR 4) with 4 by (cbn; lra).
  set (t := underflow F64 x 3) in *. set (u := uro F64) in *. assert (U1 : u <= / 16777216) by exact U.
  assert (Q : 4 * u / (1 - 2 * (4 * u)) <= / 1000).
  { apply Rmult_le_reg_r with (1 - 2 * (4 * u)); [lra|]. unfold Rdiv. rewrite Rmult_assoc, Rinv_l by lra. lra. }
  assert (0 <= 4 * u / (1 - 2 * (4 * u))) by (apply Rmult_le_pos; [lra|apply Rlt_le, Rinv_0_lt_compat; lra]).
  set (q := 4 * u / (1 - 2 * (4 * u))) in *. nra.
Qed.

Lemma rmap_eq {f : fty} (r : res (flt f)) (y : flt f) : rmap B2SF r = Ok (B2SF y) -> r = Ok y.
Proof.
  destruct r as [x| |]; cbn; intros H; try discriminate. f_equal. apply B2SF_inj. congruence.
Qed.

Example C108_case : forall chk powi, let O := float_num chk F64 powi in let z := f_of_Z F64 in
  (exists r, 1 < r < 2 /\ exact_value [z 1; z 0; z (-2)]%Z r 0) /\ forall r, Rabs r <= 1 -> ~ exact_value [z 1; z 0; z (-2)]%Z r 0.
Proof.
  intros chk powi O z.
  assert (V : forall i : Z, (Z.abs i <= 2 ^ 24)%Z -> B2R (z i) = IZR i /\ is_finite (z i) = true).
  { intros i Hi. apply f_of_Z_small. cbn. lia. }
  assert (V0 := V 0%Z ltac:(lia)). assert (V1 := V 1%Z ltac:(lia)). assert (V2 := V 2%Z ltac:(lia)). assert (V3 := V (-2)%Z ltac:(lia)).
  assert (V4 := V (-1)%Z ltac:(lia)). assert (V5 := V 3%Z ltac:(lia)). assert (V6 := V 6%Z ltac:(lia)).
  pose proof (@uro_small F64) as U. pose proof (@uro_pos F64) as U0.
  assert (N4 : INR 4 = 4) by (cbn; lra).
  split.
  - destruct V0 as [B0 F0], V1 as [B1 F1], V2 as [B2 F2], V3 as [B3 F3], V4 as [B4 F4], V5 as [B5 F5], V6 as [B6 F6].
    assert (HL : absolute [z 1; z 0; z (-2)]%Z [z 1; z 0; z 2]%Z).
    { split; [reflexivity|]. intros [|[|[|d]]]; cbn [vcoef rev app nth].
      - rewrite B3, B2. split; [exact F3|]. split; [exact F2|]. rewrite Rabs_left; lra.
      - rewrite B0, Rabs_R0. auto.
      - rewrite B1, Rabs_R1. auto.
      - destruct d; cbn; rewrite Rabs_R0; auto. }
    destruct (C108_root chk F64 powi [z 1; z 0; z (-2)]%Z [z 1; z 0; z 2]%Z (z 1%Z) (z 1%Z) (z (-1)%Z) (z 3%Z) (z 2%Z) (z 2%Z) (z 2%Z) (z 6%Z)) as (r & Hr & Er);
      try assumption; try (destruct chk; apply rmap_eq; vm_compute; reflexivity).
    + cbn [length Nat.sub Nat.mul Nat.add]. rewrite N4. lra.
    + rewrite B1, Rabs_R1. reflexivity.
    + rewrite B2, Rabs_pos_eq; lra.
    + rewrite B1, B5, B4. eapply Rlt_trans; [apply (small_radius 3); lra|]. rewrite Rabs_left; lra.
    + rewrite B2, B6. eapply Rlt_trans; [apply (small_radius 6); lra|]. rewrite Rabs_pos_eq; lra.
    + rewrite B1, B2. lra.
    + rewrite B4, B2. lra.
    + exists r. rewrite B1, B2 in Hr. split; [exact Hr|exact Er].
  - intros r Hr. destruct V0 as [B0 F0], V1 as [B1 F1], V2 as [B2 F2], V3 as [B3 F3].
    apply (C108_no_root chk F64 powi [z 1; z 0]%Z [z 1; z 0]%Z (z (-2)%Z) (z 1%Z) (z 1%Z) r); try assumption.
    + split; [reflexivity|]. intros [|[|[|d]]]; cbn [app vcoef rev nth].
      * cbn. rewrite Rabs_R0. auto.
      * rewrite B0, Rabs_R0. auto.
      * rewrite B1, Rabs_R1. auto.
      * destruct d; cbn; rewrite Rabs_R0; auto.
    + destruct chk; apply rmap_eq; vm_compute; reflexivity.
    + cbn [length Nat.mul Nat.add]. rewrite N4. lra.
    + cbn [length Nat.mul Nat.add]. rewrite N4, B1, B3. replace (Rabs (-2)) with 2 by (rewrite Rabs_left; lra).
      destruct (small_radius 1 ltac:(lra) 1 ltac:(lra)) as [_ T]. pose proof (@underflow_pos F64 1 3 ltac:(lra)) as T0.
      set (t := underflow F64 1 3) in *. set (u := uro F64) in *. assert (U1 : u <= / 16777216) by exact U.
      assert (Q : (1 - 4 * u) / (1 - 2 * (4 * u)) <= 1 + / 1000).
      { apply Rmult_le_reg_r with (1 - 2 * (4 * u)); [lra|]. unfold Rdiv. rewrite Rmult_assoc, Rinv_l by lra. lra. }
      assert (0 <= (1 - 4 * u) / (1 - 2 * (4 * u))) by (apply Rmult_le_pos; [lra|apply Rlt_le, Rinv_0_lt_compat; lra]).
      set (q := (1 - 4 * u) / (1 - 2 * (4 * u))) in *. nra.
    + rewrite B1. exact Hr.
Qed.

Print Assumptions C108_error.
Print Assumptions C108_sign.
Print Assumptions C108_root.
Print Assumptions C108_no_root.
