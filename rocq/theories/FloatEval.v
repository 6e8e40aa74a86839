(** Rounding error of the evaluation of float polynomials by Horner's scheme. *)

From Coq Require Import List NArith ZArith Reals Lia Lra Bool Arith.
From Flocq Require Import Core BinarySingleNaN.
From Verif Require Import Base Num Spec SpecFacts Laws Dense DenseFacts DenseCalc RealNum Floats FloatFacts FloatErr.
Import ListNotations.
Local Open Scope R_scope.

(** The value of a list of coefficients, highest first. *)
Definition hv {T} (den : T -> R) (l : list T) (x : R) : R := fold_left (fun s c => s * x + den c) l 0.

Lemma hv_snoc {T} (den : T -> R) l c x : hv den (l ++ [c]) x = hv den l x * x + den c.
Proof. unfold hv. rewrite fold_left_app. reflexivity. Qed.

Lemma hv_value {T} (den : T -> R) l x : @is_value R_ring (dcoef R_ring den l) x (hv den l x).
Proof.
  induction l as [|c l IH] using rev_ind.
  - apply (@is_value_zero R_ring). intros d. apply dcoef_nil.
  - rewrite hv_snoc. apply (is_value_snoc R_ring den l c x (hv den l x) IH).
Qed.

Definition geo (x : R) (n : nat) : R := @sumn R_ring (fun j => x ^ j) n.
Lemma geo_pos x n : 0 <= x -> 0 <= geo x n.
Proof. intros H. induction n as [|n IH]; [apply Rle_refl|]. unfold geo in *. cbn [sumn]. cbn. pose proof (pow_le x n H). lra. Qed.
Lemma geo_S x n : geo x (S n) = 1 + x * geo x n.
Proof.
  unfold geo. rewrite sumn_S_l. cbn -[sumn]. f_equal.
  rewrite <- (@sumn_mul_l R_ring). reflexivity.
Qed.
Lemma geo_le x y n : 0 <= x <= y -> geo x n <= geo y n.
Proof.
  intros H. induction n as [|n IH]; [apply Rle_refl|]. unfold geo in *. cbn [sumn]. cbn.
  pose proof (pow_incr x y n H). lra.
Qed.
Lemma geo_mono x n m : 0 <= x -> (n <= m)%nat -> geo x n <= geo x m.
Proof.
  intros H. induction 1 as [|m _ IH]; [lra|]. unfold geo in *. cbn [sumn]. cbn. pose proof (pow_le x m H). lra.
Qed.

Lemma hv_abs_pos {T} (den : T -> R) l x : 0 <= x -> 0 <= hv (fun a => Rabs (den a)) l x.
Proof.
  intros H. induction l as [|c l IH] using rev_ind; [apply Rle_refl|]. rewrite hv_snoc. pose proof (Rabs_pos (den c)). nra.
Qed.
Lemma hv_abs_le {T} (den : T -> R) l x y : 0 <= x <= y -> hv (fun a => Rabs (den a)) l x <= hv (fun a => Rabs (den a)) l y.
Proof.
  intros H. induction l as [|c l IH] using rev_ind; [apply Rle_refl|]. rewrite !hv_snoc.
  pose proof (hv_abs_pos den l x (proj1 H)). pose proof (hv_abs_pos den l y ltac:(lra)).
  assert (hv (fun a => Rabs (den a)) l x * x <= hv (fun a => Rabs (den a)) l y * y) by (apply Rmult_le_compat; lra). lra.
Qed.

Section Eval.
Context (chk : bool) (f : fty) (powi : flt f -> N -> flt f).
Notation O := (float_num chk f powi).
Notation u := (uro f).
Notation emax := (femax f).
Notation B := (@B2R (fprec f) (femax f)).
Notation Ba := (fun a : flt f => Rabs (B a)).
Implicit Types x y s c : flt f.

Lemma horner_nil x : horner O x [] = Ok (fzero f). Proof. reflexivity. Qed.
Lemma horner_snoc x l c : horner O x (l ++ [c]) = s <- horner O x l ;; Ok (fmul (fadd s c) x).
Proof.
  unfold horner. generalize (zero O). induction l as [|d l IH]; intros z; [reflexivity|]. cbn [app foldM]. cbn.
  apply IH.
Qed.
Lemma horner_ok x l : exists s, horner O x l = Ok s.
Proof.
  induction l as [|c l (s & IH)] using rev_ind; [eexists; reflexivity|]. rewrite horner_snoc, IH. eexists; reflexivity.
Qed.

(** Underflow error after [k] steps. *)
Definition uerr (k : nat) (X : R) : R := (1 + u) ^ (2 * (k - 1)) * eta f * geo (Rabs X) k.

Lemma uerr_pos k X : 0 <= uerr k X.
Proof.
  unfold uerr. pose proof (pow_ge_1 u uro_pos (2 * (k - 1))). pose proof (@eta_pos f). pose proof (geo_pos (Rabs X) k (Rabs_pos X)).
  apply Rmult_le_pos; [|assumption]. apply Rmult_le_pos; lra.
Qed.

Lemma uerr_step k X : (1 <= k)%nat -> (1 + u) * ((1 + u) * (uerr k X + 0) * Rabs X) + eta f <= uerr (S k) X.
Proof.
  intros Hk. unfold uerr. replace (2 * (S k - 1))%nat with (S (S (2 * (k - 1))))%nat by lia. rewrite geo_S. cbn [pow].
  set (P := (1 + u) ^ (2 * (k - 1))). assert (HP : 1 <= P) by (apply pow_ge_1, uro_pos).
  pose proof (@eta_pos f). pose proof (@uro_pos f).
  assert (1 <= (1 + u) * (1 + u) * P).
  { assert (1 <= (1 + u) * (1 + u)) by nra. nra. }
  replace ((1 + u) * ((1 + u) * P) * eta f * (1 + Rabs X * geo (Rabs X) k))
    with ((1 + u) * ((1 + u) * (P * eta f * geo (Rabs X) k + 0) * Rabs X) + (1 + u) * (1 + u) * P * eta f) by ring.
  assert (1 * eta f <= (1 + u) * (1 + u) * P * eta f) by (apply Rmult_le_compat_r; lra). lra.
Qed.

Lemma horner_err x l s : horner O x l = Ok s -> is_finite s = true -> is_finite x = true ->
  l <> [] -> appr u (2 * length l - 1) (B s) (hv B l (B x) * B x) (hv Ba l (Rabs (B x)) * Rabs (B x)) (uerr (length l) (B x)).
Proof.
  revert s. induction l as [|c l IH] using rev_ind; intros s H Hf Hx Hn; [contradiction|]. clear Hn.
  rewrite horner_snoc in H. apply bind_ok in H. destruct H as (s0 & H0 & H). injection H as <-.
  destruct (fmul_operands _ _ Hf) as [Hf1 _]. destruct (fadd_operands _ _ Hf1) as [Hf0 _].
  destruct (fmul_err _ _ Hf) as (e & h & He & Hh & E). rewrite E, !hv_snoc, app_length. cbn [length].
  destruct l as [|c0 l'].
  - cbn in H0. injection H0 as <-. rewrite (fadd_0_l (fzero f) c Hf1 eq_refl). unfold hv. cbn [fold_left length Nat.add].
    replace ((0 * B x + B c) * B x) with (B c * B x) by ring.
    replace ((0 * Rabs (B x) + Rabs (B c)) * Rabs (B x)) with (Rabs (B c) * Rabs (B x)) by ring.
    eapply appr_weaken; [apply uro_pos|apply Nat.le_refl| |apply appr_mul; [exact He|exact Hh|apply appr_exact]].
    unfold uerr. rewrite geo_S. change (geo (Rabs (B x)) 0) with 0. simpl. pose proof (@eta_pos f). lra.
  - set (l := c0 :: l') in *. specialize (IH s0 H0 Hf0 Hx ltac:(discriminate)).
    destruct (fadd_err _ _ Hf1) as (e1 & He1 & E1). rewrite E1.
    assert (Hlen : (1 <= length l)%nat) by (cbn; lia).
    assert (IH' : appr u (S (2 * length l - 1)) ((B s0 + B c) * (1 + e1)) (hv B l (B x) * B x + B c)
               (hv Ba l (Rabs (B x)) * Rabs (B x) + Rabs (B c)) ((1 + u) * (uerr (length l) (B x) + 0))).
    { apply appr_add; [exact He1|exact IH|]. eapply appr_weaken; [apply uro_pos| |apply Rle_refl|apply appr_exact]. lia. }
    eapply appr_weaken; [apply uro_pos| | |apply appr_mul; [exact He|exact Hh|exact IH']]; [lia|].
    replace (length l + 1)%nat with (S (length l)) by lia. apply uerr_step, Hlen.
Qed.

(** At a zero point the constant term is returned. *)
Lemma is_zero_B a : is_zero O a = true -> B a = 0 /\ is_finite a = true.
Proof. cbn. destruct a as [s|[]| |[] m e H]; cbn; intros K; try discriminate K; auto. Qed.
Lemma B_is_zero a : is_finite a = true -> B a = 0 -> is_zero O a = true.
Proof.
  intros H E. cbn. unfold feqb. rewrite Beqb_correct by (auto; reflexivity). rewrite E. apply Req_bool_true. reflexivity.
Qed.

Lemma dense_eval_ok l x : exists y, dense_eval O l x = Ok y.
Proof.
  unfold dense_eval. destruct (split_last l) as [[lst fst]|]; [|eexists; reflexivity].
  destruct (is_zero O x); [eexists; reflexivity|]. destruct (horner_ok x fst) as (s & ->). eexists; reflexivity.
Qed.

Lemma dense_eval_err l x y : dense_eval O l x = Ok y -> is_finite y = true -> is_finite x = true ->
  appr u (2 * (length l - 1)) (B y) (hv B l (B x)) (hv Ba l (Rabs (B x)))
    ((1 + u) ^ (2 * (length l - 1)) * eta f * geo (Rabs (B x)) (length l - 1)).
Proof.
  intros H Hf Hx. unfold dense_eval in H. pose proof (split_last_spec l) as Hs. destruct (split_last l) as [[lst fst]|].
  2:{ injection H as <-. subst l. change (B (zero O)) with 0. unfold hv. cbn [fold_left length]. simpl Nat.mul.
      replace (geo (Rabs (B x)) (0 - 1)) with 0 by reflexivity. rewrite Rmult_0_r.
      pose proof (appr_exact u 0) as K. rewrite Rabs_R0 in K. exact K. }
  subst l. rewrite !hv_snoc, app_length. cbn [length]. replace (length fst + 1 - 1)%nat with (length fst) by lia.
  assert (Gp : 0 <= (1 + u) ^ (2 * length fst) * eta f * geo (Rabs (B x)) (length fst)).
  { pose proof (pow_ge_1 u uro_pos (2 * length fst)). pose proof (@eta_pos f). pose proof (geo_pos (Rabs (B x)) (length fst) (Rabs_pos _)).
    apply Rmult_le_pos; [|assumption]. apply Rmult_le_pos; lra. }
  destruct (is_zero O x) eqn:Ez.
  - injection H as <-. apply is_zero_B in Ez. destruct Ez as [Ez _]. rewrite Ez, Rabs_R0 in *. rewrite !Rmult_0_r, !Rplus_0_l.
    eapply appr_weaken; [apply uro_pos|apply Nat.le_0_l|exact Gp|apply appr_exact].
  - apply bind_ok in H. destruct H as (s & H0 & H). injection H as <-.
    destruct (fadd_operands _ _ Hf) as [Hf0 _].
    destruct fst as [|c0 l'].
    + cbn in H0. injection H0 as <-. rewrite (fadd_0_l (fzero f) lst Hf eq_refl). unfold hv. cbn [fold_left length].
      rewrite !Rmult_0_l, !Rplus_0_l. eapply appr_weaken; [apply uro_pos|apply Nat.le_0_l|exact Gp|apply appr_exact].
    + set (l := c0 :: l') in *. assert (Hlen : (1 <= length l)%nat) by (cbn; lia).
      pose proof (horner_err x l s H0 Hf0 Hx ltac:(discriminate)) as IH.
      destruct (fadd_err _ _ Hf) as (e1 & He1 & E1). rewrite E1.
      eapply appr_weaken; [apply uro_pos| | |apply appr_add; [exact He1|exact IH|]].
      3:{ eapply appr_weaken; [apply uro_pos| |apply Rle_refl|apply appr_exact]. lia. }
      * lia.
      * unfold uerr. replace (2 * length l)%nat with (S (S (2 * (length l - 1)))) by lia. cbn [pow].
        set (P := (1 + u) ^ (2 * (length l - 1))) in *. assert (HP : 1 <= P) by (apply pow_ge_1, uro_pos).
        pose proof (@uro_pos f). pose proof (@eta_pos f). pose proof (geo_pos (Rabs (B x)) (length l) (Rabs_pos _)).
        assert (0 <= (1 + u) * (P * eta f * geo (Rabs (B x)) (length l))).
        { apply Rmult_le_pos; [lra|]. apply Rmult_le_pos; [|assumption]. apply Rmult_le_pos; lra. }
        nra.
Qed.

(** ** No overflow *)
Lemma rnd_abs_le r A t : Rabs r <= A -> 0 <= t ->
  Rabs (Generic_fmt.round radix2 (SpecFloat.fexp (fprec f) emax) (round_mode mode_NE) r) <= (1 + u) * A + eta f.
Proof.
  intros H _. destruct (@rnd_err f r) as (e & h & He & Hh & ->).
  eapply Rle_trans; [apply Rabs_triang|]. rewrite Rabs_mult.
  assert (Rabs (1 + e) <= 1 + u) by (eapply Rle_trans; [apply Rabs_triang|]; rewrite Rabs_R1; lra).
  assert (Rabs r * Rabs (1 + e) <= A * (1 + u)) by (apply Rmult_le_compat; auto using Rabs_pos). lra.
Qed.

Lemma fadd_finite_bound (a b : flt f) A C : is_finite a = true -> is_finite b = true -> Rabs (B a) <= A -> Rabs (B b) <= C ->
  (1 + u) * (A + C) < bpow radix2 emax -> is_finite (fadd a b) = true.
Proof.
  intros Ha Hb HA HC H. apply fadd_finite; auto. destruct (rnd_add_err a b) as (e & He & ->). rewrite Rabs_mult.
  assert (Rabs (1 + e) <= 1 + u) by (eapply Rle_trans; [apply Rabs_triang|]; rewrite Rabs_R1; lra).
  assert (Rabs (B a + B b) <= A + C) by (eapply Rle_trans; [apply Rabs_triang|]; lra).
  assert (Rabs (B a + B b) * Rabs (1 + e) <= (A + C) * (1 + u)) by (apply Rmult_le_compat; auto using Rabs_pos). lra.
Qed.
Lemma fmul_finite_bound (a b : flt f) A : is_finite a = true -> is_finite b = true -> Rabs (B a) * Rabs (B b) <= A ->
  (1 + u) * A + eta f < bpow radix2 emax -> is_finite (fmul a b) = true.
Proof.
  intros Ha Hb HA H. apply fmul_finite; auto. eapply Rle_lt_trans; [|exact H]. apply (rnd_abs_le _ _ 0); [|lra]. rewrite Rabs_mult. exact HA.
Qed.

(** [Q n l M]: the bound for the run over the prefix [l]. *)
Notation Q l M := ((1 + u) ^ (2 * length l) * (hv Ba l M * M + eta f * geo M (length l))).

Lemma horner_finite x l M : is_finite x = true -> Forall (fun c => is_finite c = true) l -> 1 <= M -> Rabs (B x) <= M ->
  Q l M < bpow radix2 emax ->
  exists s, horner O x l = Ok s /\ is_finite s = true /\
    Rabs (B s) <= Q l M.
Proof.
  intros Hx Hl HM HxM. induction l as [|c l IH] using rev_ind; intros HQ.
  - exists (fzero f). repeat split. change (B (fzero f)) with 0. rewrite Rabs_R0. cbn. unfold geo. cbn. lra.
  - apply Forall_app in Hl. destruct Hl as [Hl Hc]. inversion_clear Hc as [|? ? Hc' _]. rewrite horner_snoc.
    rewrite app_length in HQ |- *. cbn [length] in *. replace (length l + 1)%nat with (S (length l)) in * by lia. rewrite hv_snoc in HQ |- *.
    replace (2 * S (length l))%nat with (S (S (2 * length l))) in * by lia. rewrite geo_S in HQ |- *.
    set (P := (1 + u) ^ (2 * length l)) in *. cbn [pow] in *. fold P in HQ |- *.
    assert (HP : 1 <= P) by (apply pow_ge_1, uro_pos).
    pose proof (@uro_pos f) as Hu. pose proof (@eta_pos f) as He.
    pose proof (hv_abs_pos B l M ltac:(lra)) as HA. pose proof (geo_pos M (length l) ltac:(lra)) as HG.
    pose proof (Rabs_pos (B c)) as Hcp. set (A := hv Ba l M) in *. set (G := geo M (length l)) in *. set (C := Rabs (B c)) in *.
    change (0 <= A) in HA.
    assert (HAM : 0 <= A * M) by (apply Rmult_le_pos; lra). assert (HEG : 0 <= eta f * G) by (apply Rmult_le_pos; lra).
    assert (S1 : P * (A * M + eta f * G) <= (1 + u) * (P * (A * M + eta f * G) + C)).
    { assert (0 <= P * (A * M + eta f * G)) by (apply Rmult_le_pos; lra). nra. }
    assert (S2 : (1 + u) * (P * (A * M + eta f * G) + C) <= (1 + u) * (P * (A * M + eta f * G + C))).
    { apply Rmult_le_compat_l; [lra|]. assert (1 * C <= P * C) by (apply Rmult_le_compat_r; lra). lra. }
    set (W := A * M + eta f * G + C) in *. assert (HW : 0 <= W) by (unfold W; lra).
    assert (S3 : (1 + u) * ((1 + u) * (P * W) * M) + eta f <= (1 + u) * ((1 + u) * P) * ((A * M + C) * M + eta f * (1 + M * G))).
    { replace ((A * M + C) * M + eta f * (1 + M * G)) with (W * M + eta f) by (unfold W; ring).
      assert (1 <= (1 + u) * ((1 + u) * P)) by nra.
      assert (1 * eta f <= (1 + u) * ((1 + u) * P) * eta f) by (apply Rmult_le_compat_r; lra). lra. }
    assert (S4 : (1 + u) * (P * W) <= (1 + u) * ((1 + u) * (P * W) * M)).
    { assert (0 <= P * W) by nra. assert (1 <= (1 + u) * M) by nra.
      replace ((1 + u) * ((1 + u) * (P * W) * M)) with ((1 + u) * (P * W) * ((1 + u) * M)) by ring.
      assert (0 <= (1 + u) * (P * W)) by nra. nra. }
    destruct (IH Hl ltac:(unfold W in *; lra)) as (s & E & Hs & Hb). rewrite E. exists (fmul (fadd s c) x). split; [reflexivity|].
    assert (F1 : is_finite (fadd s c) = true).
    { apply (fadd_finite_bound s c (P * (A * M + eta f * G)) C Hs Hc' Hb (Rle_refl _)). unfold W in *. lra. }
    assert (F2 : Rabs (B (fadd s c)) <= (1 + u) * (P * W)).
    { destruct (fadd_err s c F1) as (e & He' & ->). rewrite Rabs_mult.
      assert (Rabs (1 + e) <= 1 + u) by (eapply Rle_trans; [apply Rabs_triang|]; rewrite Rabs_R1; lra).
      assert (Rabs (B s + B c) <= P * (A * M + eta f * G) + C) by (eapply Rle_trans; [apply Rabs_triang|]; unfold C; lra).
      assert (Rabs (B s + B c) * Rabs (1 + e) <= (P * (A * M + eta f * G) + C) * (1 + u)) by (apply Rmult_le_compat; auto using Rabs_pos).
      unfold W in *. lra. }
    assert (F3 : Rabs (B (fadd s c)) * Rabs (B x) <= (1 + u) * (P * W) * M) by (apply Rmult_le_compat; auto using Rabs_pos).
    assert (F4 : is_finite (fmul (fadd s c) x) = true).
    { apply (fmul_finite_bound _ _ _ F1 Hx F3). lra. }
    split; [exact F4|]. rewrite (fmul_round _ _ F4).
    eapply Rle_trans; [apply (rnd_abs_le _ ((1 + u) * (P * W) * M) 0); [rewrite Rabs_mult; exact F3|lra]|]. exact S3.
Qed.

Lemma dense_eval_finite l x M : is_finite x = true -> Forall (fun c => is_finite c = true) l -> 1 <= M -> Rabs (B x) <= M ->
  (1 + u) ^ (2 * length l) * (hv Ba l M + eta f * geo M (length l - 1)) < bpow radix2 emax ->
  exists y, dense_eval O l x = Ok y /\ is_finite y = true.
Proof.
  intros Hx Hl HM HxM HQ. unfold dense_eval. pose proof (split_last_spec l) as Hs. destruct (split_last l) as [[lst fst]|].
  2:{ exists (zero O). split; reflexivity. }
  subst l. apply Forall_app in Hl. destruct Hl as [Hl Hc]. inversion_clear Hc as [|? ? Hc' _].
  destruct (is_zero O x); [exists lst; auto|].
  rewrite app_length in HQ. cbn [length] in HQ. replace (length fst + 1 - 1)%nat with (length fst) in HQ by lia.
  replace (2 * (length fst + 1))%nat with (S (S (2 * length fst))) in HQ by lia. rewrite hv_snoc in HQ. cbn [pow] in HQ.
  pose proof (hv_abs_pos B fst M ltac:(lra)) as HA. pose proof (geo_pos M (length fst) ltac:(lra)) as HG.
  pose proof (@uro_pos f) as Hu. pose proof (@eta_pos f) as He. pose proof (Rabs_pos (B lst)) as Hcp.
  set (P := (1 + u) ^ (2 * length fst)) in *. assert (HP : 1 <= P) by (apply pow_ge_1, uro_pos).
  set (A := hv Ba fst M) in *. set (G := geo M (length fst)) in *. set (C := Rabs (B lst)) in *.
  change (0 <= A) in HA.
  assert (HAM : 0 <= A * M) by (apply Rmult_le_pos; lra). assert (HEG : 0 <= eta f * G) by (apply Rmult_le_pos; lra).
  set (W := A * M + C + eta f * G) in *. assert (HW : 0 <= W) by (unfold W; lra).
  assert (0 <= P * W) by nra.
  assert (S1 : (1 + u) * (P * W) <= (1 + u) * ((1 + u) * P) * W).
  { replace ((1 + u) * ((1 + u) * P) * W) with ((1 + u) * (P * W) * (1 + u)) by ring. assert (0 <= (1 + u) * (P * W)) by nra. nra. }
  assert (S2 : P * (A * M + eta f * G) + C <= P * W) by (unfold W; nra).
  assert (S3 : P * (A * M + eta f * G) <= (1 + u) * (P * W)) by nra.
  destruct (horner_finite x fst M Hx Hl HM HxM) as (s & E & Hs & Hb); [unfold A, G, P in *; lra|].
  fold A G P in Hb. rewrite E. exists (fadd s lst). split; [reflexivity|].
  apply (fadd_finite_bound s lst (P * (A * M + eta f * G)) C Hs Hc' Hb (Rle_refl _)).
  eapply Rle_lt_trans; [|exact HQ]. eapply Rle_trans; [|exact S1]. apply Rmult_le_compat_l; [lra|exact S2].
Qed.

End Eval.
