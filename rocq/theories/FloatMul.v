(** Rounding error of the product of float polynomials. *)

From Coq Require Import List NArith ZArith Reals Lia Lra Bool Arith.
From Coq Require Import ZifyBool ZifyNat ZifyN.
From Flocq Require Import Core BinarySingleNaN.
From Verif Require Import Base Num Spec SpecFacts Laws Dense DenseFacts DenseArith DenseMul RealNum Floats FloatFacts FloatErr FloatEval Coef.
Import ListNotations.
Local Open Scope R_scope.

Section Mul.
Context (chk : bool) (f : fty) (powi : flt f -> N -> flt f).
Notation O := (float_num chk f powi).
Notation u := (uro f).
Notation emax := (femax f).
Notation B := (@B2R (fprec f) (femax f)).
Notation Ba := (fun a : flt f => Rabs (B a)).
Notation c := (cf (fzero f)).
Notation dc := (dcoef R_ring B).
Notation da := (dcoef R_ring Ba).

Lemma dc_cf l d : dc l d = B (c l d).
Proof. apply (dcoef_cf (fzero f) R_ring B). reflexivity. Qed.
Lemma da_cf l d : da l d = Rabs (B (c l d)).
Proof. apply (dcoef_cf (fzero f) R_ring Ba). cbn. apply Rabs_R0. Qed.

(** Underflow error of [k] products added up. *)
Definition perr (k : nat) : R := INR k * (1 + u) ^ (k - 1) * eta f.
Lemma perr_pos k : 0 <= perr k.
Proof.
  unfold perr. pose proof (pow_ge_1 u uro_pos (k - 1)). pose proof (@eta_pos f). pose proof (pos_INR k).
  apply Rmult_le_pos; [|lra]. apply Rmult_le_pos; lra.
Qed.
Lemma perr_mono k m : (k <= m)%nat -> perr k <= perr m.
Proof.
  intros H. unfold perr. pose proof (@eta_pos f). apply Rmult_le_compat_r; [lra|].
  apply Rmult_le_compat; [apply pos_INR|pose proof (pow_ge_1 u uro_pos (k - 1)); lra|apply le_INR, H|].
  apply Rle_pow; [pose proof (@uro_pos f); lra|lia].
Qed.
Lemma perr_step k : (1 <= k)%nat -> (1 + u) * (perr k + eta f) <= perr (S k).
Proof.
  intros H. unfold perr. rewrite S_INR. replace (S k - 1)%nat with (S (k - 1)) by lia. cbn [pow].
  set (P := (1 + u) ^ (k - 1)). assert (HP : 1 <= P) by (apply pow_ge_1, uro_pos).
  pose proof (@eta_pos f) as He. pose proof (@uro_pos f) as Hu.
  replace ((INR k + 1) * ((1 + u) * P) * eta f) with ((1 + u) * (INR k * P * eta f + P * eta f)) by ring.
  apply Rmult_le_compat_l; [lra|]. assert (1 * eta f <= P * eta f) by (apply Rmult_le_compat_r; lra). lra.
Qed.

(** [t] is the sum of at most [K] rounded products, of exact sum [v] and absolute sum [A]. *)
Definition acc (K : nat) (t : flt f) (v A : R) : Prop :=
  exists k, (k <= K)%nat /\ (k = 0%nat -> B t = 0) /\ appr u k (B t) v A (perr k).

Lemma acc_zero : acc 0 (fzero f) 0 0.
Proof.
  exists 0%nat. split; [lia|]. split; [reflexivity|]. change (B (fzero f)) with 0.
  pose proof (appr_exact u 0) as H. rewrite Rabs_R0 in H.
  eapply appr_weaken; [apply uro_pos|apply Nat.le_refl|apply perr_pos|exact H].
Qed.

Lemma acc_step K t r l v A : acc K t v A -> is_finite (fadd t (fmul r l)) = true ->
  acc (S K) (fadd t (fmul r l)) (v + B r * B l) (A + Rabs (B r) * Rabs (B l)).
Proof.
  intros (k & Hk & H0 & Ha) Hf. destruct (fadd_operands _ _ Hf) as [Ht Hp].
  destruct (fmul_err r l Hp) as (e & h & He & Hh & Ep).
  assert (Ap : appr u 1 (B (fmul r l)) (B r * B l) (Rabs (B r) * Rabs (B l)) (eta f)).
  { rewrite Ep. eapply appr_weaken; [apply uro_pos|apply Nat.le_refl| |apply appr_mul; [exact He|exact Hh|apply appr_exact]].
    lra. }
  exists (S k). split; [lia|]. split; [discriminate|]. destruct k as [|k].
  - specialize (H0 eq_refl). rewrite (fadd_0_l _ _ Hf H0).
    destruct Ha as [Ha1 Ha2]. destruct Ap as [Ap1 Ap2].
    assert (V : v = 0).
    { rewrite H0 in Ha2. cbn in Ha2. unfold perr in Ha2. cbn in Ha2.
      replace ((1 - 1) * A + 0 * 1 * eta f) with 0 in Ha2 by ring. pose proof (Rabs_pos (0 - v)).
      assert (E : Rabs (0 - v) = 0) by lra. apply Rabs_eq_R0 in E || (destruct (Req_dec (0 - v) 0) as [E'|E']; [lra|apply Rabs_no_R0 in E'; lra]). lra. }
    subst v. rewrite Rplus_0_l. rewrite Rabs_R0 in Ha1. split; [lra|].
    unfold perr. cbn [INR Nat.sub pow] in *. pose proof (@uro_pos f). 
    assert (0 <= u * A) by (apply Rmult_le_pos; lra). lra.
  - destruct (fadd_err _ _ Hf) as (e1 & He1 & ->).
    eapply appr_weaken; [apply uro_pos|apply Nat.le_refl| |apply appr_add; [exact He1|exact Ha|]].
    2:{ eapply appr_weaken; [apply uro_pos| |apply Rle_refl|exact Ap]. lia. }
    apply perr_step. lia.
Qed.

Lemma acc_weaken K K' t v v' A A' : (K <= K')%nat -> v = v' -> A = A' -> acc K t v A -> acc K' t v' A'.
Proof. intros H <- <- (k & Hk & X). exists k. split; [lia|exact X]. Qed.

(** The number of rows before row [idx] that touch the coefficient of x^d, of [n] in all, when a
    row has [w] entries. *)
Definition touched (n idx w d : nat) : nat := (Nat.min idx (n - d) - (n - d - w))%nat.

Lemma zero_row (b : bool) (a p q t : R) : q = 0 -> a + p = a + @radd R_ring (if b then @r0 R_ring else @rmul R_ring q t) p.
Proof. intros ->. destruct b; cbn; ring. Qed.

Lemma mul_rows_err lhs rhs : forall idx terms r va aa, (length terms + 1 = idx + length rhs + length lhs)%nat ->
  mul_rows O idx rhs lhs terms = Ok r ->
  (forall d, is_finite (c terms d) = true -> acc (touched (length terms) idx (length lhs) d) (c terms d) (va d) (aa d)) ->
  length r = length terms /\
  forall d, is_finite (c r d) = true ->
    acc (touched (length terms) (idx + length rhs) (length lhs) d) (c r d) (va d + pmul (dc rhs) (dc lhs) d) (aa d + pmul (da rhs) (da lhs) d).
Proof.
  induction rhs as [|rt rhs IH]; intros idx terms r va aa Hl H Hacc; cbn [mul_rows] in H.
  - injection H as <-. split; [reflexivity|]. intros d Hd. rewrite !(@pmul_zero_l R_ring) by (intros i; apply dcoef_nil).
    unfold pzero. cbn. rewrite !Rplus_0_r, Nat.add_0_r. apply Hacc, Hd.
  - cbn [length] in Hl. destruct (is_zero O rt) eqn:Ez.
    + apply is_zero_B in Ez. destruct Ez as [Ez _].
      assert (Hacc' : forall d, is_finite (c terms d) = true -> acc (touched (length terms) (S idx) (length lhs) d) (c terms d) (va d) (aa d)).
      { intros d Hd. eapply acc_weaken; [|reflexivity|reflexivity|apply Hacc, Hd]. unfold touched. lia. }
      destruct (IH (S idx) terms r va aa ltac:(lia) H Hacc') as [L1 L2]. split; [exact L1|]. intros d Hd.
      specialize (L2 d Hd). rewrite !(pmul_dcons R_ring). rewrite Ez. cbn [length].
      eapply acc_weaken; [| | |exact L2].
      * unfold touched. lia.
      * apply zero_row. reflexivity.
      * apply zero_row. apply Rabs_R0.
    + inv_ok. apply slice_from_ok in E. destruct E as [Hi ->].
      destruct (mul_row_cf (fzero f) O rt lhs (skipn idx terms) _ (length rhs) ltac:(rewrite skipn_length; lia) E0) as [R1 R2].
      rewrite skipn_length in R1.
      set (terms' := firstn idx terms ++ v0) in *.
      assert (Hlen : length terms' = length terms).
      { unfold terms'. rewrite app_length, firstn_length, R1. lia. }
      set (upd := fun (den : flt f -> R) (d : nat) => if (d <? length rhs)%nat then 0 else den rt * dcoef R_ring den lhs (d - length rhs)%nat).
      assert (Hacc' : forall d, is_finite (c terms' d) = true ->
         acc (touched (length terms') (S idx) (length lhs) d) (c terms' d) (va d + upd B d) (aa d + upd Ba d)).
      { intros d Hd. rewrite Hlen. unfold terms' in *. rewrite cf_app, R1 in Hd |- *.
        assert (Et : c terms d = if (d <? length terms - idx)%nat then c (skipn idx terms) d else c (firstn idx terms) (d - (length terms - idx))).
        { rewrite <- (firstn_skipn idx terms) at 1. rewrite cf_app, skipn_length. reflexivity. }
        specialize (Hacc d). specialize (R2 d). destruct (Nat.ltb_spec d (length terms - idx)) as [Hlt|Hge].
        - destruct (Nat.leb_spec (length rhs) d) as [H1|H1]; cbn [andb] in R2.
          + replace (d <? length rhs + length lhs)%nat with true in R2 by lia.
            destruct R2 as (p & Hp & Ha). cbn in Hp, Ha. injection Hp as <-. injection Ha as Ha. rewrite <- Ha in Hd |- *.
            destruct (fadd_operands _ _ Hd) as [Ht _]. rewrite <- Et in Hd, Ht |- *. specialize (Hacc Ht).
            unfold upd. replace (d <? length rhs)%nat with false by lia. rewrite dc_cf, da_cf.
            eapply acc_weaken; [|reflexivity|reflexivity|apply acc_step; [exact Hacc|exact Hd]]. unfold touched. lia.
          + rewrite R2 in Hd |- *. rewrite <- Et in Hd |- *. specialize (Hacc Hd). unfold upd.
            replace (d <? length rhs)%nat with true by lia. rewrite !Rplus_0_r.
            eapply acc_weaken; [|reflexivity|reflexivity|exact Hacc]. unfold touched. lia.
        - rewrite <- Et in Hd |- *. specialize (Hacc Hd). unfold upd. replace (d <? length rhs)%nat with false by lia.
          rewrite dc_cf, da_cf, (cf_overflow _ lhs) by lia. change (B (fzero f)) with 0. rewrite Rabs_R0, !Rmult_0_r, !Rplus_0_r.
          eapply acc_weaken; [|reflexivity|reflexivity|exact Hacc]. unfold touched. lia. }
      destruct (IH (S idx) terms' r _ _ ltac:(lia) H Hacc') as [L1 L2]. split; [lia|]. intros d Hd.
      specialize (L2 d Hd). rewrite !(pmul_dcons R_ring). cbn [length]. rewrite Hlen in L2.
      eapply acc_weaken; [| | |exact L2].
      * unfold touched. lia.
      * apply Rplus_assoc.
      * apply Rplus_assoc.
Qed.

Lemma strip_dc (g : R -> R) l d : g 0 = 0 ->
  dcoef R_ring (fun a : flt f => g (B a)) (strip O l) d = dcoef R_ring (fun a : flt f => g (B a)) l d.
Proof.
  intros Hg. rewrite !(dcoef_cf (fzero f) R_ring (fun a : flt f => g (B a))) by exact Hg.
  pose proof (strip_cf (fzero f) O l d) as H. destruct (Nat.ltb_spec d (length (strip O l))) as [H1|H1]; [rewrite H; reflexivity|].
  rewrite cf_overflow by exact H1. destruct (Nat.ltb_spec d (length l)) as [H2|H2].
  - specialize (H H2). apply is_zero_B in H. destruct H as [-> _]. reflexivity.
  - rewrite cf_overflow by exact H2. reflexivity.
Qed.

Lemma slice_mul_err a b r : vec_ok O a -> vec_ok O b -> slice_mul O a b = Ok r ->
  forall d, is_finite (c r d) = true ->
    appr u (Nat.min (length a) (length b)) (B (c r d)) (pmul (dc a) (dc b) d) (pmul (da a) (da b) d) (perr (Nat.min (length a) (length b))).
Proof.
  intros Ha Hb H d Hd. unfold vec_ok in *. unfold slice_mul in H. rewrite !slice_from_strip in H. cbn [bind] in H.
  pose proof (len_strip O a) as La. pose proof (len_strip O b) as Lb.
  assert (Hcap : (n_max_len O <= 2 ^ 62)%N) by (destruct f; vm_compute; discriminate).
  rewrite uadd_small in H by (unfold USIZE_MAX; lia). cbn [bind] in H.
  destruct (N.eq_dec (len (strip O b) + len (strip O a)) 0) as [E0|E0].
  { exfalso. rewrite E0 in H.
    assert (Hc2 : (USIZE_MAX <=? n_max_len O)%N = false) by (destruct f; reflexivity).
    change (usub (n_chk O) 0 1) with (if chk then @Panic N POverflow else Ok USIZE_MAX) in H.
    destruct chk; cbn [bind] in H; [discriminate|]. unfold vec_repeat in H. rewrite Hc2 in H. discriminate. }
  rewrite usub_le in H by lia. cbn [bind] in H. apply bind_ok in H. destruct H as (terms & Hv & H).
  unfold vec_repeat in Hv. destruct (N.leb_spec (len (strip O b) + len (strip O a) - 1) (n_max_len O)) as [K|K]; [|discriminate].
  injection Hv as <-.
  set (n := N.to_nat (len (strip O b) + len (strip O a) - 1)) in *.
  assert (Hn : (n + 1 = length (strip O b) + length (strip O a))%nat) by (unfold n, len in *; lia).
  destruct (mul_rows_err (strip O a) (strip O b) 0 (repeat (zero O) n) r (fun _ => 0) (fun _ => 0)) as [_ L2].
  - rewrite repeat_length. lia.
  - exact H.
  - intros d' _. change (zero O) with (fzero f). rewrite cf_repeat. eapply acc_weaken; [|reflexivity|reflexivity|apply acc_zero]. lia.
  - destruct (L2 d Hd) as (k & Hk & _ & Ap). rewrite !Rplus_0_l in Ap.
    assert (Hm : (k <= Nat.min (length a) (length b))%nat).
    { rewrite repeat_length in Hk. unfold touched in Hk. unfold len in La, Lb. lia. }
    assert (E1 : pmul (dc (strip O b)) (dc (strip O a)) d = pmul (dc a) (dc b) d).
    { rewrite (@pmul_comm R_ring). apply (@pmul_ext R_ring); intros i; apply (strip_dc (fun x => x)); reflexivity. }
    assert (E2 : pmul (da (strip O b)) (da (strip O a)) d = pmul (da a) (da b) d).
    { rewrite (@pmul_comm R_ring). apply (@pmul_ext R_ring); intros i; apply (strip_dc Rabs), Rabs_R0. }
    rewrite E1, E2 in Ap. eapply appr_weaken; [apply uro_pos|exact Hm|apply perr_mono, Hm|exact Ap].
Qed.

End Mul.
