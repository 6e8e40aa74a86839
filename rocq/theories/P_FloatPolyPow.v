(** Property C102: powers of float polynomials. *)

From Coq Require Import List NArith ZArith Reals Lia Lra Psatz Bool Arith.
From Coq Require Import ZifyBool ZifyNat ZifyN.
From Flocq Require Import Core Relative BinarySingleNaN.
From Verif Require Import Base Num Spec SpecFacts Laws Dense DenseFacts DenseArith DenseMul RealNum Floats FloatFacts FloatErr FloatEval FloatCoef Coef FloatMul P_FloatErr.
Import ListNotations.
Local Open Scope R_scope.

(** ** Specification *)

(** Every coefficient is a multiple of 2^q; every list of finite floats has such a q. *)
Definition grid {f} (q : Z) (l : list (flt f)) : Prop := forall d, exists z : Z, B2R (vcoef l d) = IZR z * bpow radix2 q.

(** Roundings on the way to a coefficient of the n-th power of a polynomial with l coefficients. *)
Definition pow_roundings (l n : nat) : nat := (n * Nat.log2 n * (l - 1) + (n - 1))%nat.

(** ** Sums of products *)
Section Grid.
Context {f : fty}.
Notation prec := (fprec f).
Notation emax := (femax f).
Notation emin := (SpecFloat.emin prec emax).
Notation fexp := (SpecFloat.fexp prec emax).
Notation rnd := (Generic_fmt.round radix2 fexp ZnearestE).
Notation u := (uro f).
Notation B := (@B2R (fprec f) (femax f)).

Definition mult (q : Z) (r : R) : Prop := exists z : Z, r = IZR z * bpow radix2 q.

Lemma mult_0 q : mult q 0.
Proof. exists 0%Z. ring. Qed.
Lemma mult_add q x y : mult q x -> mult q y -> mult q (x + y).
Proof. intros [a ->] [b ->]. exists (a + b)%Z. rewrite plus_IZR. ring. Qed.
Lemma mult_mul p q x y : mult p x -> mult q y -> mult (p + q) (x * y).
Proof. intros [a ->] [b ->]. exists (a * b)%Z. rewrite mult_IZR, bpow_plus. ring. Qed.
Lemma mult_le p q x : (p <= q)%Z -> mult q x -> mult p x.
Proof.
  intros H [a ->]. exists (a * 2 ^ (q - p))%Z. rewrite mult_IZR. replace q with ((q - p) + p)%Z at 1 by ring. rewrite bpow_plus.
  rewrite <- (IZR_Zpower radix2) by lia. change (radix_val radix2) with 2%Z. ring.
Qed.

(** Rounding keeps multiples of 2^q and, above the underflow threshold, has a relative error. *)
Lemma rnd_mult q r : (emin <= q)%Z -> mult q r -> mult q (rnd r) /\ exists e, Rabs e <= u /\ rnd r = r * (1 + e).
Proof.
  intros Hq [z Hz]. set (ex := cexp radix2 fexp r). destruct (Z.le_gt_cases ex q) as [H|H].
  - assert (G : generic_format radix2 fexp r).
    { destruct (mult_le ex q r H (ex_intro _ z Hz)) as [m Hm].
      rewrite Hm. change (IZR m * bpow radix2 ex) with (F2R (Float radix2 m ex)). apply generic_format_F2R. intros _.
      unfold ex at 2. rewrite Hm. apply Z.le_refl. }
    assert (E : rnd r = r) by (apply round_generic; [apply valid_rnd_N|exact G]).
    rewrite E. split; [exists z; exact Hz|]. exists 0. rewrite Rabs_R0. split; [apply Rlt_le, uro_pos|ring].
  - split.
    + apply (mult_le q ex); [lia|]. unfold Generic_fmt.round, scaled_mantissa. fold ex. eexists. reflexivity.
    + destruct (Req_dec r 0) as [->|R0].
      { exists 0. rewrite round_0 by apply valid_rnd_N. rewrite Rabs_R0. split; [apply Rlt_le, uro_pos|ring]. }
      destruct (relative_error_N_FLT_ex radix2 emin prec (fprec_pos f) (fun z : Z => negb (Z.even z)) r) as (e & He & E).
      { unfold ex, cexp, SpecFloat.fexp in H. destruct (mag radix2 r) as [m Hm]. cbn [mag_val] in *. specialize (Hm R0). 
        eapply Rle_trans; [|apply Hm]. apply bpow_le. lia. }
      exists e. split; [|exact E]. eapply Rle_trans; [exact He|]. unfold uro. right.
      replace (- prec + 1)%Z with (1 + - prec)%Z by ring. rewrite bpow_plus. change (bpow radix2 1) with 2. lra.
Qed.

Definition dot (t : flt f) (L : list (flt f * flt f)) : flt f := fold_left (fun t xy => fadd t (fmul (fst xy) (snd xy))) L t.
Definition dotR (L : list (flt f * flt f)) : R := fold_right (fun xy s => B (fst xy) * B (snd xy) + s) 0 L.
Definition dotA (L : list (flt f * flt f)) : R := fold_right (fun xy s => Rabs (B (fst xy)) * Rabs (B (snd xy)) + s) 0 L.

Lemma dot_finite L : forall t, is_finite (dot t L) = true -> is_finite t = true /\ forall x y, In (x, y) L -> is_finite x = true /\ is_finite y = true.
Proof.
  induction L as [|[x y] L IH]; intros t H; [split; [exact H|intros ? ? []]|].
  destruct (IH _ H) as [H1 H2]. cbn [fst snd] in H1. destruct (fadd_operands _ _ H1) as [H3 H4]. split; [exact H3|].
  intros x' y' [E|K]; [injection E as <- <-; apply fmul_operands, H4|apply H2, K].
Qed.

Lemma dot_err p q L : (emin <= p + q)%Z -> Forall (fun xy => mult p (B (fst xy)) /\ mult q (B (snd xy))) L ->
  forall k t v A, is_finite (dot t L) = true -> mult (p + q) (B t) -> (k = 0%nat -> B t = 0) -> appr u k (B t) v A 0 ->
  mult (p + q) (B (dot t L)) /\ appr u (k + length L) (B (dot t L)) (v + dotR L) (A + dotA L) 0.
Proof.
  intros Hq. induction 1 as [|[x y] L [Hx Hy] _ IH]; intros k t v A Hf Ht H0 HA.
  - cbn. rewrite Nat.add_0_r, !Rplus_0_r. auto.
  - cbn [fst snd] in *. cbn [dot fold_left fst snd] in *. fold (dot (fadd t (fmul x y)) L) in *.
    destruct (dot_finite _ _ Hf) as [F1 _]. destruct (fadd_operands _ _ F1) as [F2 F3].
    pose proof (mult_mul p q _ _ Hx Hy) as Hxy. destruct (rnd_mult (p + q) _ Hq Hxy) as [M1 (e & He & E)].
    pose proof (fmul_round x y F3) as Em. change (round_mode mode_NE) with ZnearestE in Em. rewrite <- Em in M1, E.
    assert (Ap : appr u 1 (B (fmul x y)) (B x * B y) (Rabs (B x) * Rabs (B y)) 0).
    { rewrite E. pose proof (appr_mul u 0 (B x) (B x) (Rabs (B x)) 0 (B y) e 0 0 He) as K.
      rewrite Rabs_R0 in K. specialize (K (Rle_refl 0) (appr_exact u (B x))). rewrite Rplus_0_r in K.
      eapply appr_weaken; [apply uro_pos|apply Nat.le_refl| |exact K]. lra. }
    assert (M2 : mult (p + q) (B (fadd t (fmul x y)))) by (rewrite (fadd_round _ _ F1); change (round_mode mode_NE) with ZnearestE; apply rnd_mult; [exact Hq|apply mult_add; assumption]).
    assert (Ap2 : appr u (S k) (B (fadd t (fmul x y))) (v + B x * B y) (A + Rabs (B x) * Rabs (B y)) 0).
    { destruct k as [|k].
      - rewrite (fadd_0_l _ _ F1 (H0 eq_refl)). destruct HA as [A1 A2]. rewrite (H0 eq_refl) in A2. cbn [pow] in A2.
        replace ((1 - 1) * A + 0) with 0 in A2 by ring.
        assert (v = 0). { destruct (Req_dec v 0) as [|N]; [assumption|]. assert (0 < Rabs (0 - v)) by (apply Rabs_pos_lt; lra). lra. }
        subst v. rewrite Rplus_0_l. rewrite Rabs_R0 in A1. destruct Ap as [P1 P2]. split; [lra|]. pose proof (@uro_pos f). nra.
      - destruct (fadd_err _ _ F1) as (e1 & He1 & ->).
        eapply appr_weaken; [apply uro_pos|apply Nat.le_refl| |apply appr_add; [exact He1|exact HA|]].
        2:{ eapply appr_weaken; [apply uro_pos| |apply Rle_refl|exact Ap]. lia. }
        pose proof (@uro_pos f). lra. }
    destruct (IH (S k) _ _ _ Hf M2 ltac:(discriminate) Ap2) as [R1 R2]. split; [exact R1|].
    cbn [length dotR dotA fold_right fst snd]. fold (dotR L) (dotA L).
    replace (k + S (length L))%nat with (S k + length L)%nat by lia. rewrite <- !Rplus_assoc. exact R2.
Qed.
End Grid.

Lemma pmul_pos (p q : poly R_ring) d : (forall i, 0 <= p i) -> (forall i, 0 <= q i) -> 0 <= @pmul R_ring p q d.
Proof.
  intros Hp Hq. unfold pmul. generalize (S d). intros n.
  assert (forall g : nat -> R, (forall i, 0 <= g i) -> 0 <= @sumn R_ring g n).
  { intros g Hg. induction n as [|n IH]; [apply Rle_refl|]. cbn [sumn]. apply Rplus_le_le_0_compat; [exact IH|apply Hg]. }
  apply H. intros i. apply Rmult_le_pos; [apply Hp|apply Hq].
Qed.

(** ** Products *)
Section Mul.
Context (chk : bool) (f : fty) (powi : flt f -> N -> flt f).
Notation O := (float_num chk f powi).
Notation u := (uro f).
Notation emin := (SpecFloat.emin (fprec f) (femax f)).
Notation B := (@B2R (fprec f) (femax f)).
Notation Ba := (fun a : flt f => Rabs (B a)).
Notation c := (cf (fzero f)).
Notation dc := (dcoef R_ring B).
Notation da := (dcoef R_ring Ba).

(** The products that are added up for the coefficient of x^d, in the order of the code. *)
Fixpoint prods (rhs lhs : list (flt f)) (d : nat) : list (flt f * flt f) :=
  match rhs with
  | [] => []
  | rt :: rhs' =>
    (if negb (is_zero O rt) && ((length rhs' <=? d)%nat && (d <? length rhs' + length lhs)%nat)
     then [(rt, c lhs (d - length rhs'))] else []) ++ prods rhs' lhs d
  end.

Lemma mul_rows_dot lhs rhs : forall idx terms r, (length terms + 1 = idx + length rhs + length lhs)%nat ->
  mul_rows O idx rhs lhs terms = Ok r ->
  length r = length terms /\ forall d, c r d = dot (c terms d) (prods rhs lhs d).
Proof.
  induction rhs as [|rt rhs IH]; intros idx terms r Hl H; cbn [mul_rows] in H.
  - injection H as <-. split; reflexivity.
  - cbn [length] in Hl. cbn [prods]. destruct (is_zero O rt) eqn:Ez; cbn [negb andb app].
    + apply (IH (S idx) terms r ltac:(lia) H).
    + inv_ok. apply slice_from_ok in E. destruct E as [Hi ->].
      destruct (mul_row_cf (fzero f) O rt lhs (skipn idx terms) _ (length rhs) ltac:(rewrite skipn_length; lia) E0) as [R1 R2].
      rewrite skipn_length in R1. set (terms' := firstn idx terms ++ v0) in *.
      assert (Hlen : length terms' = length terms) by (unfold terms'; rewrite app_length, firstn_length, R1; lia).
      destruct (IH (S idx) terms' r ltac:(lia) H) as [L1 L2]. split; [lia|]. intros d. rewrite L2. unfold dot. rewrite fold_left_app. f_equal.
      unfold terms'. rewrite cf_app, R1.
      assert (Et : c terms d = if (d <? length terms - idx)%nat then c (skipn idx terms) d else c (firstn idx terms) (d - (length terms - idx))).
      { rewrite <- (firstn_skipn idx terms) at 1. rewrite cf_app, skipn_length. reflexivity. }
      rewrite Et. specialize (R2 d).
      replace (length terms - idx)%nat with (length rhs + length lhs)%nat in * by lia.
      destruct (Nat.ltb_spec d (length rhs + length lhs)) as [Hlt|Hge].
      * destruct (Nat.leb_spec (length rhs) d) as [H1|H1]; cbn [andb] in *; [|exact R2].
        destruct R2 as (p & Hp & Ha). cbn in Hp, Ha. injection Hp as <-. injection Ha as Ha. cbn [fold_left fst snd]. symmetry. exact Ha.
      * rewrite andb_false_r. reflexivity.
Qed.

Lemma prods_length rhs lhs d : (length (prods rhs lhs d) <= Nat.min (length rhs) (S d) - (S d - length lhs))%nat.
Proof.
  induction rhs as [|rt rhs IH]; [cbn; lia|]. cbn [prods length]. rewrite app_length.
  destruct (negb (is_zero O rt)); cbn [andb].
  - destruct (Nat.leb_spec (length rhs) d); cbn [andb]; [destruct (Nat.ltb_spec d (length rhs + length lhs))|]; cbn [length]; lia.
  - cbn [length]. lia.
Qed.

Lemma prods_in rhs lhs d x y : In (x, y) (prods rhs lhs d) -> In x rhs /\ exists j, y = c lhs j.
Proof.
  induction rhs as [|rt rhs IH]; [intros []|]. cbn [prods]. intros H. apply in_app_or in H. destruct H as [H|H].
  - destruct (negb _ && _); [|destruct H]. destruct H as [H|[]]. injection H as <- <-. split; [left; reflexivity|eauto].
  - destruct (IH H) as [H1 H2]. split; [right; exact H1|exact H2].
Qed.

Lemma prods_mem rhs1 rt rhs2 lhs j : is_zero O rt = false -> (j < length lhs)%nat ->
  In (rt, c lhs j) (prods (rhs1 ++ rt :: rhs2) lhs (length rhs2 + j)).
Proof.
  intros Hz Hj. induction rhs1 as [|x rhs1 IH].
  - cbn [app prods]. rewrite Hz. cbn [negb andb]. replace (length rhs2 <=? length rhs2 + j)%nat with true by lia.
    replace (length rhs2 + j <? length rhs2 + length lhs)%nat with true by lia. left. f_equal. f_equal. lia.
  - cbn [app prods]. apply in_or_app. right. exact IH.
Qed.

Lemma prods_sum rhs lhs d : dotR (prods rhs lhs d) = pmul (dc rhs) (dc lhs) d /\ dotA (prods rhs lhs d) = pmul (da rhs) (da lhs) d.
Proof.
  assert (AR : forall L M : list (flt f * flt f), dotR (L ++ M) = dotR L + dotR M /\ dotA (L ++ M) = dotA L + dotA M).
  { intros L M. unfold dotR, dotA. induction L as [|xy L [I1 I2]]; cbn [app fold_right]; [split; ring|].
    rewrite I1, I2. split; ring. }
  induction rhs as [|rt rhs [I1 I2]].
  - cbn [prods]. rewrite !(@pmul_zero_l R_ring) by (intros i; apply dcoef_nil). split; reflexivity.
  - cbn [prods]. destruct (AR (if negb (is_zero O rt) && ((length rhs <=? d)%nat && (d <? length rhs + length lhs)%nat) then [(rt, c lhs (d - length rhs))] else []) (prods rhs lhs d)) as [-> ->].
    rewrite !(pmul_dcons R_ring), I1, I2.
    generalize (pmul (dc rhs) (dc lhs) d) (pmul (da rhs) (da lhs) d). intros s1 s2. change R in (type of s1); change R in (type of s2). change (@length (binary_float (fprec f) (femax f))) with (@length (flt f)). destruct (is_zero O rt) eqn:Ez; cbn [negb andb].
    + apply is_zero_B in Ez. destruct Ez as [Ez _]. rewrite Ez, Rabs_R0. unfold dotR, dotA; cbn [fold_right fst snd rmul radd r0 R_ring]. destruct (d <? length rhs)%nat; split; ring.
    + destruct (Nat.leb_spec (length rhs) d) as [H1|H1]; cbn [andb].
      * replace (d <? length rhs)%nat with false by lia. destruct (Nat.ltb_spec d (length rhs + length lhs)) as [H2|H2].
        -- rewrite dc_cf, da_cf. unfold dotR, dotA; cbn [fold_right fst snd rmul radd r0 R_ring]. split; ring.
        -- rewrite dc_cf, da_cf, (cf_overflow _ lhs) by lia. change (B (fzero f)) with 0. rewrite Rabs_R0. unfold dotR, dotA; cbn [fold_right fst snd rmul radd r0 R_ring]. split; ring.
      * replace (d <? length rhs)%nat with true by lia. unfold dotR, dotA; cbn [fold_right fst snd rmul radd r0 R_ring]. split; ring.
Qed.

Lemma slice_mul_dot a b r : vec_ok O a -> vec_ok O b -> slice_mul O a b = Ok r ->
  (length r + 1 = length (strip O a) + length (strip O b))%nat /\ forall d, c r d = dot (fzero f) (prods (strip O b) (strip O a) d).
Proof.
  intros Ha Hb H. unfold vec_ok in *. unfold slice_mul in H. rewrite !slice_from_strip in H. cbn [bind] in H.
  pose proof (len_strip O a) as La. pose proof (len_strip O b) as Lb.
  assert (Hcap : (n_max_len O <= 2 ^ 62)%N) by (destruct f; vm_compute; discriminate).
  rewrite uadd_small in H by (unfold USIZE_MAX; lia). cbn [bind] in H.
  destruct (N.eq_dec (len (strip O b) + len (strip O a)) 0) as [E0|E0].
  { exfalso. rewrite E0 in H.
    assert (Hc2 : (USIZE_MAX <=? n_max_len O)%N = false) by (destruct f; reflexivity).
    change (usub (n_chk O) 0 1) with (if chk then @Panic N POverflow else Ok USIZE_MAX) in H.
    destruct chk; cbn [bind] in H; [discriminate|]. unfold vec_repeat in H. rewrite Hc2 in H. discriminate. }
  rewrite usub_le in H by lia. cbn [bind] in H. apply bind_ok in H. destruct H as (terms & Hv & H).
  unfold vec_repeat in Hv. destruct (N.leb_spec (len (strip O b) + len (strip O a) - 1) (n_max_len O)) as [K|K]; [|discriminate].
  injection Hv as <-.
  set (n := N.to_nat (len (strip O b) + len (strip O a) - 1)) in *.
  assert (Hn : (n + 1 = length (strip O b) + length (strip O a))%nat) by (unfold n, len in *; lia).
  destruct (mul_rows_dot (strip O a) (strip O b) 0 (repeat (zero O) n) r) as [L1 L2]; [rewrite repeat_length; lia|exact H|].
  rewrite repeat_length in L1. split; [lia|]. intros d. rewrite L2. change (zero O) with (fzero f). rewrite cf_repeat. reflexivity.
Qed.

Definition fin (l : list (flt f)) : Prop := forall d, is_finite (c l d) = true.

Lemma fin_strip l : fin (strip O l) <-> fin l.
Proof. split; intros H d; pose proof (strip_same chk f powi l d) as K; destruct (fsame_B _ _ K) as [_ E]; specialize (H d); congruence. Qed.

(** A product with finite coefficients has finite factors, ... *)
Lemma mul_fin a b r : vec_ok O a -> vec_ok O b -> slice_mul O a b = Ok r -> strip O a <> [] -> strip O b <> [] -> fin r -> fin a /\ fin b.
Proof.
  intros Ha Hb H Na Nb Hr. destruct (slice_mul_dot a b r Ha Hb H) as [_ Hd].
  assert (G : forall d x y, In (x, y) (prods (strip O b) (strip O a) d) -> is_finite x = true /\ is_finite y = true).
  { intros d. apply (dot_finite _ (fzero f)). rewrite <- Hd. apply Hr. }
  split; apply fin_strip; intros d.
  - destruct (Nat.lt_ge_cases d (length (strip O a))) as [K|K]; [|rewrite cf_overflow by exact K; reflexivity].
    destruct (strip_split O b) as (_ & _ & _ & _ & Hs). destruct (strip O b) as [|x q]; [congruence|].
    apply (G _ _ _ (prods_mem [] x q (strip O a) d Hs K)).
  - destruct (Nat.lt_ge_cases d (length (strip O b))) as [K|K]; [|rewrite cf_overflow by exact K; reflexivity].
    destruct (is_zero O (c (strip O b) d)) eqn:Ez; [apply is_zero_B in Ez; apply Ez|].
    assert (E : exists l1 l2, strip O b = l1 ++ c (strip O b) d :: l2).
    { apply in_split. unfold cf. apply in_rev. apply nth_In. rewrite rev_length. exact K. }
    destruct E as (l1 & l2 & E). remember (c (strip O b) d) as x. 
    assert (K2 : (0 < length (strip O a))%nat) by (destruct (strip O a); [congruence|cbn; lia]).
    pose proof (prods_mem l1 x l2 (strip O a) 0 Ez K2) as M. rewrite <- E in M. apply (G _ _ _ M).
Qed.

(** ... and an error in relation to the absolute values, if nothing underflows. *)
Lemma mul_err p q a b r : vec_ok O a -> vec_ok O b -> slice_mul O a b = Ok r -> fin r -> (emin <= p + q)%Z ->
  (forall d, mult p (B (c a d))) -> (forall d, mult q (B (c b d))) -> forall d,
  mult (p + q) (B (c r d)) /\
  Rabs (B (c r d) - pmul (dc a) (dc b) d) <= ((1 + u) ^ Nat.min (length (strip O a)) (length (strip O b)) - 1) * pmul (da a) (da b) d.
Proof.
  intros Ha Hb H Hr Hq Ga Gb d. destruct (slice_mul_dot a b r Ha Hb H) as [_ Hd].
  assert (Sa : forall l d, B (c (strip O l) d) = B (c l d)) by (intros l e; apply (fsame_B _ _ (strip_same chk f powi l e))).
  assert (F : Forall (fun xy => mult q (B (fst xy)) /\ mult p (B (snd xy))) (prods (strip O b) (strip O a) d)).
  { apply Forall_forall. intros [x y] K. apply prods_in in K. destruct K as [K1 (j & ->)]. cbn [fst snd]. split; [|rewrite Sa; apply Ga].
    apply in_rev in K1. apply (In_nth _ _ (fzero f)) in K1. destruct K1 as (i & _ & <-). change (nth i (rev (strip O b)) (fzero f)) with (c (strip O b) i).
    rewrite Sa. apply Gb. }
  assert (A0 : appr u 0 (B (fzero f)) 0 0 0) by (pose proof (appr_exact u 0) as K; rewrite Rabs_R0 in K; exact K).
  assert (Hq' : (emin <= q + p)%Z) by (rewrite Z.add_comm; exact Hq).
  destruct (dot_err q p _ Hq' F 0 (fzero f) 0 0) as [M [_ E]]; [rewrite <- Hd; apply Hr|apply mult_0|reflexivity|exact A0|].
  rewrite <- Hd in M, E. split; [rewrite Z.add_comm; exact M|].
  destruct (prods_sum (strip O b) (strip O a) d) as [S1 S2]. rewrite S1, S2, !Rplus_0_l, Rplus_0_r in E.
  assert (E1 : pmul (dc (strip O b)) (dc (strip O a)) d = pmul (dc a) (dc b) d).
  { rewrite (@pmul_comm R_ring). apply (@pmul_ext R_ring); intros i; apply (strip_dc chk f powi (fun x => x)); reflexivity. }
  assert (E2 : pmul (da (strip O b)) (da (strip O a)) d = pmul (da a) (da b) d).
  { rewrite (@pmul_comm R_ring). apply (@pmul_ext R_ring); intros i; apply (strip_dc chk f powi Rabs), Rabs_R0. }
  rewrite E1, E2 in E. eapply Rle_trans; [exact E|]. cbn [Nat.add]. change (@length (binary_float (fprec f) (femax f))) with (@length (flt f)). pose proof (prods_length (strip O b) (strip O a) d) as PL.
  assert (P0 : 0 <= pmul (da a) (da b) d).
  { apply pmul_pos; intros i; rewrite da_cf; apply Rabs_pos. }
  apply Rmult_le_compat_r; [exact P0|]. apply Rplus_le_compat_r, Rle_pow; [pose proof (@uro_pos f); lra|]. change (flt f) with (binary_float (fprec f) (femax f)) in *. lia.
Qed.
End Mul.

(** ** Powers *)
Section Apx.
Context {f : fty}.
Notation u := (uro f).

(** [y] is [v], up to a relative error that [k] roundings can cause and absolute values [A]. *)
Definition apx (k : nat) (y v A : poly R_ring) : Prop := forall d, appr u k (y d) (v d) (A d) 0.

Lemma appr_mul2 k m y1 v1 A1 y2 v2 A2 : appr u k y1 v1 A1 0 -> appr u m y2 v2 A2 0 -> appr u (k + m) (y1 * y2) (v1 * v2) (A1 * A2) 0.
Proof.
  intros [H1 H2] [H3 H4]. pose proof (Rabs_pos v1). pose proof (Rabs_pos v2). split.
  - rewrite Rabs_mult. apply Rmult_le_compat; assumption.
  - rewrite pow_add. pose proof (pow_ge_1 u uro_pos k) as G1. pose proof (pow_ge_1 u uro_pos m) as G2.
    set (U := (1 + u) ^ k) in *. set (V := (1 + u) ^ m) in *. rewrite Rplus_0_r in *.
    replace (y1 * y2 - v1 * v2) with ((y1 - v1) * (y2 - v2) + (y1 - v1) * v2 + v1 * (y2 - v2)) by ring.
    eapply Rle_trans; [apply Rabs_triang|]. rewrite Rabs_mult.
    apply Rle_trans with ((U - 1) * A1 * ((V - 1) * A2) + (U - 1) * A1 * A2 + A1 * ((V - 1) * A2)); [|right; ring].
    pose proof (Rabs_pos (y1 - v1)). pose proof (Rabs_pos (y2 - v2)). apply Rplus_le_compat.
    + eapply Rle_trans; [apply Rabs_triang|]. rewrite !Rabs_mult. apply Rplus_le_compat; apply Rmult_le_compat; assumption.
    + apply Rmult_le_compat; assumption.
Qed.

Lemma appr_sum k (y v A : nat -> R) n : (forall i, appr u k (y i) (v i) (A i) 0) -> appr u k (@sumn R_ring y n) (@sumn R_ring v n) (@sumn R_ring A n) 0.
Proof.
  intros H. induction n as [|n [I1 I2]]; cbn [sumn].
  - cbn. split; [rewrite Rabs_R0; lra|]. rewrite Rminus_0_r, Rabs_R0. lra.
  - destruct (H n) as [H1 H2]. cbn [radd R_ring]. split; [eapply Rle_trans; [apply Rabs_triang|apply Rplus_le_compat; assumption]|].
    match goal with |- Rabs ?a <= _ => replace a with ((@sumn R_ring y n - @sumn R_ring v n) + (y n - v n)) by (unfold car, R_ring; ring) end.
    eapply Rle_trans; [apply Rabs_triang|]. rewrite Rplus_0_r in *.
    eapply Rle_trans; [apply Rplus_le_compat; [exact I2|exact H2]|]. right. unfold car, R_ring. ring.
Qed.

Lemma apx_mul k m y1 v1 A1 y2 v2 A2 : apx k y1 v1 A1 -> apx m y2 v2 A2 -> apx (k + m) (pmul y1 y2) (pmul v1 v2) (pmul A1 A2).
Proof. intros H1 H2 d. unfold pmul. apply (appr_sum (k + m) (fun i => rmul (y1 i) (y2 (d - i)%nat))). intros i. apply appr_mul2; [apply H1|apply H2]. Qed.

Lemma appr_abs k y v A : appr u k y v A 0 -> Rabs y <= (1 + u) ^ k * A.
Proof.
  intros [H1 H2]. replace y with ((y - v) + v) by ring. eapply Rle_trans; [apply Rabs_triang|]. pose proof (pow_ge_1 u uro_pos k). lra.
Qed.

Lemma apx_trans s k y w v A B' : (forall d, Rabs (y d - w d) <= ((1 + u) ^ s - 1) * B' d) -> apx k w v A ->
  (forall d, B' d <= (1 + u) ^ k * A d) -> apx (s + k) y v A.
Proof.
  intros H1 H2 H3 d. destruct (H2 d) as [K1 K2]. split; [exact K1|]. rewrite Rplus_0_r in *.
  replace (y d - v d) with ((y d - w d) + (w d - v d)) by ring. eapply Rle_trans; [apply Rabs_triang|]. rewrite pow_add.
  pose proof (pow_ge_1 u uro_pos s) as G1. pose proof (pow_ge_1 u uro_pos k) as G2.
  specialize (H1 d). specialize (H3 d). 
  apply Rle_trans with (((1 + u) ^ s - 1) * ((1 + u) ^ k * A d) + ((1 + u) ^ k - 1) * A d); [|right; ring].
  apply Rplus_le_compat; [|exact K2]. eapply Rle_trans; [exact H1|]. apply Rmult_le_compat_l; [lra|exact H3].
Qed.

Lemma appr_mono_A k y v A A' : A <= A' -> appr u k y v A 0 -> appr u k y v A' 0.
Proof. intros H [H1 H2]. split; [lra|]. pose proof (pow_ge_1 u uro_pos k). nra. Qed.
End Apx.

Lemma pmul_abs_le (a b A' B' : poly R_ring) d : (forall i, Rabs (a i) <= A' i) -> (forall i, Rabs (b i) <= B' i) ->
  @pmul R_ring (fun i => Rabs (a i)) (fun i => Rabs (b i)) d <= @pmul R_ring A' B' d.
Proof.
  intros Ha Hb. unfold pmul. generalize (S d). intros n.
  assert (G : forall g h : nat -> R, (forall i, g i <= h i) -> @sumn R_ring g n <= @sumn R_ring h n).
  { intros g h Hg. induction n as [|n IH]; [apply Rle_refl|]. cbn [sumn]. apply Rplus_le_compat; [exact IH|apply Hg]. }
  apply G. intros i. cbn. apply Rmult_le_compat; auto using Rabs_pos.
Qed.

Lemma pmul_scal (x y : R) (A' B' : poly R_ring) d : @pmul R_ring (fun i => x * A' i) (fun i => y * B' i) d = x * y * @pmul R_ring A' B' d.
Proof.
  unfold pmul. induction (S d) as [|n IH]; [cbn; ring|]. cbn [sumn]. rewrite IH. cbn [rmul radd R_ring].
  match goal with |- context [@sumn R_ring ?g n] => set (s := @sumn R_ring g n) end. change R in (type of s). clearbody s. cbn in *.
  match goal with |- ?a = ?b => change (@eq R a b) end. ring.
Qed.

Section Pow.
Context (chk : bool) (f : fty) (powi : flt f -> N -> flt f).
Notation O := (float_num chk f powi).
Notation u := (uro f).
Notation emin := (SpecFloat.emin (fprec f) (femax f)).
Notation B := (@B2R (fprec f) (femax f)).
Notation Ba := (fun a : flt f => Rabs (B a)).
Notation c := (cf (fzero f)).
Notation dc := (dcoef R_ring B).
Notation da := (dcoef R_ring Ba).

Lemma mul_apx p q k m a b r P A Q A' : vec_ok O a -> vec_ok O b -> slice_mul O a b = Ok r -> fin f r -> (emin <= p + q)%Z ->
  (forall d, mult p (B (c a d))) -> (forall d, mult q (B (c b d))) ->
  apx (f := f) k (dc a) P A -> apx (f := f) m (dc b) Q A' ->
  (forall d, mult (p + q) (B (c r d))) /\
  apx (f := f) (Nat.min (length (strip O a)) (length (strip O b)) + (k + m)) (dc r) (pmul P Q) (pmul A A').
Proof.
  intros Ha Hb H Hr Hq Ga Gb Xa Xb. pose proof (mul_err chk f powi p q a b r Ha Hb H Hr Hq Ga Gb) as G.
  split; [intros d; apply G|]. apply (apx_trans _ _ _ (pmul (dc a) (dc b)) _ _ (pmul (da a) (da b))).
  - intros d. rewrite dc_cf. apply G.
  - apply apx_mul; assumption.
  - intros d. rewrite pow_add, <- pmul_scal.
    rewrite (@pmul_ext R_ring (da a) (fun i => Rabs (dc a i)) (da b) (fun i => Rabs (dc b i))) by (intros i; rewrite da_cf, dc_cf; reflexivity).
    apply pmul_abs_le; intros i; eapply appr_abs; [apply Xa|apply Xb].
Qed.

(** The zero polynomial has no computed power of degree two or more. *)
Lemma pow_zero fuel : forall p e r, vec_ok O p -> (2 <= e)%N -> dense_pow O fuel p e = Ok r -> strip O p <> [].
Proof.
  induction fuel as [|fuel IH]; intros p e r Hp He H Ez; [discriminate|]. cbn [dense_pow] in H.
  replace (e =? 0)%N with false in H by lia. replace (e =? 1)%N with false in H by lia.
  destruct (N.eqb_spec e 2) as [->|E2].
  - unfold dense_mul_ref in H. inv_ok. destruct (slice_mul_dot chk f powi p p _ Hp Hp E) as [L _]. rewrite Ez in L. cbn in L. lia.
  - destruct (N.eqb_spec (e mod 2) 0) as [Em|Em]; inv_ok; (eapply IH; [exact Hp| |exact E|exact Ez]); [|lia].
    pose proof (N.div_mod e 2 ltac:(lia)). lia.
Qed.

(** Roundings by the recursion of the code. *)
Lemma roundings_double l m : (1 <= m)%nat -> (Nat.min ((l - 1) * m + 1) ((l - 1) * m + 1) + (pow_roundings l m + pow_roundings l m) <= pow_roundings l (m + m))%nat.
Proof.
  intros Hm. unfold pow_roundings. rewrite Nat.min_id. replace (m + m)%nat with (2 * m)%nat by lia. rewrite Nat.log2_double by lia. set (g := Nat.log2 m). set (k := (l - 1)%nat).
  replace (2 * m * S g * k)%nat with (m * g * k + m * g * k + m * k + m * k)%nat by ring. rewrite (Nat.mul_comm k m). lia.
Qed.
Lemma roundings_succ l m : (2 <= m)%nat -> (l + pow_roundings l m <= pow_roundings l (S m) + (if (l =? 0)%nat then 1 else 0))%nat.
Proof.
  intros Hm. unfold pow_roundings. assert (1 <= Nat.log2 (S m))%nat by (apply (Nat.log2_le_mono 2); lia).
  assert (Nat.log2 m <= Nat.log2 (S m))%nat by (apply Nat.log2_le_mono; lia).
  set (g := Nat.log2 m) in *. set (g' := Nat.log2 (S m)) in *. destruct l as [|k]; cbn [Nat.eqb]; [lia|]. replace (S k - 1)%nat with k by lia.
  assert (m * g * k <= m * g' * k)%nat by (apply Nat.mul_le_mono_r, Nat.mul_le_mono_l; assumption).
  assert (1 * k <= g' * k)%nat by (apply Nat.mul_le_mono_r; assumption).
  replace (S m * g' * k)%nat with (m * g' * k + g' * k)%nat by ring. lia.
Qed.

Lemma strip_slen (l : list (flt f)) : (length (strip O l) <= length l)%nat.
Proof. pose proof (len_strip O l) as K. unfold len in K. lia. Qed.

Lemma cap_pos : (1 <= n_max_len O)%N.
Proof. destruct f; vm_compute; discriminate. Qed.

Lemma slice_mul_cap a b r : vec_ok O a -> vec_ok O b -> slice_mul O a b = Ok r -> vec_ok O r.
Proof.
  intros Ha Hb H. destruct (slice_mul_dot chk f powi a b r Ha Hb H) as [L _]. unfold vec_ok in *. unfold slice_mul in H.
  rewrite !slice_from_strip in H. cbn [bind] in H.
  pose proof (len_strip O a) as La. pose proof (len_strip O b) as Lb.
  assert (Hcap : (n_max_len O <= 2 ^ 62)%N) by (destruct f; vm_compute; discriminate).
  rewrite uadd_small in H by (unfold USIZE_MAX; lia). cbn [bind] in H. unfold len in *. rewrite usub_le in H by lia. cbn [bind] in H.
  apply bind_ok in H. destruct H as (terms & Hv & _). unfold vec_repeat in Hv.
  match type of Hv with (if (?x <=? ?y)%N then _ else _) = _ => destruct (N.leb_spec x y) as [K|K]; [|discriminate] end. lia.
Qed.

Lemma strip_mult q l : (forall d, mult q (B (c l d))) -> forall d, mult q (B (c (strip O l) d)).
Proof. intros H d. destruct (fsame_B _ _ (strip_same chk f powi l d)) as [-> _]. apply H. Qed.
Lemma strip_apx k l P A : apx (f := f) k (dc l) P A -> apx (f := f) k (dc (strip O l)) P A.
Proof. intros H d. rewrite !dc_cf. destruct (fsame_B _ _ (strip_same chk f powi l d)) as [-> _]. specialize (H d). rewrite dc_cf in H. exact H. Qed.
Lemma apx_le k m y v A : (k <= m)%nat -> apx (f := f) k y v A -> apx (f := f) m y v A.
Proof. intros H K d. eapply appr_weaken; [apply uro_pos|exact H|apply Rle_refl|apply K]. Qed.
Lemma apx_ext k y v v' A A' : peq v v' -> peq A A' -> apx (f := f) k y v A -> apx (f := f) k y v' A'.
Proof. intros H1 H2 K d. rewrite <- (H1 d), <- (H2 d). apply K. Qed.

Lemma mul_ref_shape a b r : vec_ok O a -> vec_ok O b -> dense_mul_ref O a b = Ok r ->
  vec_ok O r /\ (length r + 1 <= length a + length b)%nat.
Proof.
  intros Ha Hb H. unfold dense_mul_ref in H. apply bind_ok in H. destruct H as (t & Ht & H). rewrite dense_new_ok in H. injection H as <-.
  pose proof (slice_mul_cap a b t Ha Hb Ht) as Vt. destruct (slice_mul_dot chk f powi a b t Ha Hb Ht) as [Lt _].
  split; [apply strip_vec_ok, Vt|]. pose proof (strip_slen a). pose proof (strip_slen b). pose proof (strip_slen t). lia.
Qed.

Lemma pow_shape fuel : forall p e r, vec_ok O p -> dense_pow O fuel p e = Ok r ->
  vec_ok O r /\ (length r <= (length p - 1) * N.to_nat e + 1)%nat.
Proof.
  induction fuel as [|fuel IH]; intros p e r Hp H; [discriminate|]. pose proof (pow_zero (S fuel) p e r Hp) as Z0. specialize (fun X => Z0 X H).
  cbn [dense_pow] in H. destruct (N.eqb_spec e 0) as [->|E0]; [injection H as <-; split; [exact cap_pos|cbn; lia]|].
  destruct (N.eqb_spec e 1) as [->|E1].
  { rewrite dense_new_ok in H. injection H as <-. split; [apply strip_vec_ok, Hp|]. pose proof (strip_slen p). change (N.to_nat 1) with 1%nat. lia. }
  assert (Lp : (1 <= length p)%nat).
  { pose proof (strip_slen p). assert (K : strip O p <> []) by (apply Z0; lia). destruct (strip O p); [congruence|cbn in *; lia]. }
  destruct (N.eqb_spec e 2) as [->|E2].
  { destruct (mul_ref_shape p p r Hp Hp H) as [V L]. split; [exact V|]. change (N.to_nat 2) with 2%nat. lia. }
  destruct (N.eqb_spec (e mod 2) 0) as [Em|Em]; apply bind_ok in H; destruct H as (h & Hh & H).
  - destruct (IH _ _ _ Hp Hh) as [Vh Lh]. destruct fuel as [|fuel']; [discriminate|]. cbn [dense_pow] in H.
    change ((2 =? 0)%N) with false in H. change ((2 =? 1)%N) with false in H. change ((2 =? 2)%N) with true in H. cbv iota in H.
    destruct (mul_ref_shape h h r Vh Vh H) as [V L]. split; [exact V|].
    assert (He : N.to_nat e = (N.to_nat (e / 2) + N.to_nat (e / 2))%nat) by (pose proof (N.div_mod e 2 ltac:(lia)); lia).
    rewrite He. lia.
  - destruct (IH _ _ _ Hp Hh) as [Vh Lh]. destruct (mul_ref_shape p h r Hp Vh H) as [V L]. split; [exact V|].
    assert (He : N.to_nat e = S (N.to_nat (e - 1))) by lia. rewrite He. lia.
Qed.

Lemma pow_apx fuel : forall p e r q, vec_ok O p -> dense_pow O fuel p e = Ok r -> fin f r ->
  (forall d, mult q (B (c p d))) -> (emin <= Z.of_N e * q)%Z ->
  (forall d, mult (Z.of_N e * q) (B (c r d))) /\
  apx (f := f) (pow_roundings (length p) (N.to_nat e)) (dc r) (ppow (dc p) (N.to_nat e)) (ppow (da p) (N.to_nat e)).
Proof.
  assert (He0 : (emin <= 0)%Z) by (destruct f; vm_compute; discriminate).
  induction fuel as [|fuel IH]; intros p e r q Hp H Hr Gp Hq; [discriminate|]. pose proof (pow_zero (S fuel) p e r Hp) as Z0. specialize (fun X => Z0 X H).
  assert (Hp0 : apx (f := f) 0 (dc p) (dc p) (da p)).
  { intros d. rewrite da_cf, dc_cf. apply appr_exact. }
  cbn [dense_pow] in H. destruct (N.eqb_spec e 0) as [->|E0].
  { assert (r = [one O]) by congruence. subst r.
    assert (V : forall d, B (c [one O] d) = if (d =? 0)%nat then 1 else 0).
    { intros [|d]; [change (B (f_of_Z f 1) = 1); apply (f_of_Z_small f 1%Z); destruct f; vm_compute; discriminate|]. unfold cf. cbn. destruct d; reflexivity. }
    split.
    - intros d. rewrite V. destruct (d =? 0)%nat; [exists 1%Z; cbn; ring|apply mult_0].
    - intros d. rewrite dc_cf, V. cbn [N.to_nat ppow]. unfold pow_roundings, pone. cbn [Nat.mul Nat.sub Nat.add].
      destruct d as [|d]; cbn; [pose proof (appr_exact u 1) as K|pose proof (appr_exact u 0) as K]; [rewrite Rabs_R1 in K|rewrite Rabs_R0 in K]; exact K. }
  destruct (N.eqb_spec e 1) as [->|E1].
  { rewrite dense_new_ok in H. injection H as <-. rewrite Z.mul_1_l. split; [apply strip_mult, Gp|].
    change (N.to_nat 1) with 1%nat. apply strip_apx. apply (apx_le 0); [lia|].
    eapply apx_ext; [apply peq_sym, ppow_1|apply peq_sym, ppow_1|exact Hp0]. }
  assert (SQ : forall h j r, vec_ok O h -> dense_mul_ref O h h = Ok r -> fin f r -> (1 <= j)%nat -> (length h <= (length p - 1) * j + 1)%nat ->
    (emin <= Z.of_nat (j + j) * q)%Z ->
    (fin f h -> (forall d, mult (Z.of_nat j * q) (B (c h d))) /\ apx (f := f) (pow_roundings (length p) j) (dc h) (ppow (dc p) j) (ppow (da p) j)) ->
    (forall d, mult (Z.of_nat (j + j) * q) (B (c r d))) /\
    apx (f := f) (pow_roundings (length p) (j + j)) (dc r) (ppow (dc p) (j + j)) (ppow (da p) (j + j))).
  { clear r H Hr Z0. intros h j r Hh H Hr Hj Lh Hq2 G. unfold dense_mul_ref in H. apply bind_ok in H. destruct H as (t & Ht & H). rewrite dense_new_ok in H. injection H as <-.
    apply (proj1 (fin_strip chk f powi _)) in Hr.
    destruct (slice_mul_dot chk f powi h h t Hh Hh Ht) as [Lt _].
    assert (Nh : strip O h <> []) by (intros E; rewrite E in Lt; cbn in Lt; lia).
    destruct (mul_fin chk f powi h h t Hh Hh Ht Nh Nh Hr) as [Fh _]. destruct (G Fh) as [G1 G2].
    assert (Eq : (Z.of_nat (j + j) * q = Z.of_nat j * q + Z.of_nat j * q)%Z) by lia.
    destruct (mul_apx _ _ _ _ h h t _ _ _ _ Hh Hh Ht Hr ltac:(rewrite <- Eq; exact Hq2) G1 G1 G2 G2) as [M1 M2].
    pose proof (strip_slen h) as Sh. split; [rewrite Eq; apply strip_mult, M1|].
    apply strip_apx. eapply apx_le; [eapply Nat.le_trans; [|apply (roundings_double (length p) j Hj)]|].
    2:{ eapply apx_ext; [apply peq_sym, ppow_add|apply peq_sym, ppow_add|exact M2]. }
    apply Nat.add_le_mono_r. apply Nat.min_glb; lia. }
  destruct (N.eqb_spec e 2) as [->|E2].
  { change (N.to_nat 2) with (1 + 1)%nat. change (Z.of_N 2) with (Z.of_nat (1 + 1)) in *.
    apply (SQ p 1%nat r Hp H Hr); [lia|lia|exact Hq|]. intros Fp. rewrite Z.mul_1_l. split; [exact Gp|].
    apply (apx_le 0); [lia|]. eapply apx_ext; [apply peq_sym, ppow_1|apply peq_sym, ppow_1|exact Hp0]. }
  destruct (N.eqb_spec (e mod 2) 0) as [Em|Em]; apply bind_ok in H; destruct H as (h & Hh & H); destruct (pow_shape _ _ _ _ Hp Hh) as [Vh Lh].
  - assert (He : N.to_nat e = (N.to_nat (e / 2) + N.to_nat (e / 2))%nat) by (pose proof (N.div_mod e 2 ltac:(lia)); lia).
    assert (He2 : Z.of_N e = Z.of_nat (N.to_nat (e / 2) + N.to_nat (e / 2))) by lia.
    assert (He3 : Z.of_N (e / 2) = Z.of_nat (N.to_nat (e / 2))) by lia.
    assert (Hj : (1 <= N.to_nat (e / 2))%nat) by lia.
    assert (Hqj : (emin <= Z.of_N (e / 2) * q)%Z).
    { rewrite He2 in Hq. rewrite He3. destruct (Z.le_gt_cases 0 q); nia. }
    specialize (fun K => IH p (e / 2)%N h q Hp Hh K Gp Hqj). rewrite He3 in IH. rewrite He2 in *. rewrite He.
    destruct fuel as [|fuel']; [discriminate|]. cbn [dense_pow] in H.
    change ((2 =? 0)%N) with false in H. change ((2 =? 1)%N) with false in H. change ((2 =? 2)%N) with true in H. cbv iota in H.
    apply (SQ h _ r Vh H Hr Hj Lh Hq IH).
  - assert (He : N.to_nat e = S (N.to_nat (e - 1))) by lia.
    assert (He2 : (Z.of_N e * q = q + Z.of_N (e - 1) * q)%Z) by nia.
    assert (Hqj : (emin <= Z.of_N (e - 1) * q)%Z).
    { destruct (Z.le_gt_cases 0 q); nia. }
    assert (Np : strip O p <> []) by (apply Z0; lia).
    unfold dense_mul_ref in H. apply bind_ok in H. destruct H as (t & Ht & H). rewrite dense_new_ok in H. injection H as <-.
    apply (proj1 (fin_strip chk f powi _)) in Hr.
    assert (Fh : fin f h).
    { destruct (strip O h) as [|x y] eqn:Eh.
      - apply (proj1 (fin_strip chk f powi _)). rewrite Eh. intros d. unfold cf. destruct d; reflexivity.
      - apply (mul_fin chk f powi p h t Hp Vh Ht Np); [rewrite Eh; discriminate|exact Hr]. }
    destruct (IH p (e - 1)%N h q Hp Hh Fh Gp Hqj) as [G1 G2]. rewrite He2 in *.
    destruct (mul_apx _ _ _ _ p h t _ _ _ _ Hp Vh Ht Hr Hq Gp G1 Hp0 G2) as [M1 M2].
    split; [apply strip_mult, M1|]. apply strip_apx. rewrite He. cbn [ppow]. eapply apx_le; [|exact M2].
    pose proof (strip_slen p) as Sp. assert (Lp : (1 <= length (strip O p))%nat) by (destruct (strip O p); [congruence|cbn; lia]).
    pose proof (roundings_succ (length p) (N.to_nat (e - 1)) ltac:(lia)) as R1. replace (length p =? 0)%nat with false in R1 by lia. lia.
Qed.
End Pow.

(** ** C102 *)

Lemma rmap_ok {A C : Type} (g : A -> C) (x : res A) (l : C) : rmap g x = Ok l -> exists r, x = Ok r /\ g r = l.
Proof. destruct x as [r| |]; cbn; intros H; try discriminate. injection H as <-. eauto. Qed.
Lemma sq_two (P : poly R_ring) : P 2%nat = 0 -> ppow P 2 2%nat = P 1%nat * P 1%nat.
Proof. intros E. cbn. rewrite E. ring. Qed.
Lemma map_two {A C : Type} (g : A -> C) l a b : map g l = [a; b] -> exists x y, l = [x; y] /\ g x = a /\ g y = b.
Proof. destruct l as [|x [|y [|? ?]]]; cbn; intros H; try discriminate. injection H as <- <-. eauto 6. Qed.


(** A computed power whose coefficients are all finite differs from the exact power by no more than [pow_roundings]
    roundings of the power of the absolute values, if the power of the spacing of the coefficients is not below the
    smallest float. *)
Theorem C102_power : forall chk f powi fuel (p r : list (flt f)) (e : N) (q : Z), let O := float_num chk f powi in
  vec_ok O p -> dense_pow O fuel p e = Ok r -> (forall d, is_finite (vcoef r d) = true) ->
  grid q p -> (SpecFloat.emin (fprec f) (femax f) <= Z.of_N e * q)%Z ->
  forall d, Rabs (B2R (vcoef r d) - ppow (rpoly p) (N.to_nat e) d) <=
    ((1 + uro f) ^ pow_roundings (length p) (N.to_nat e) - 1) * ppow (rpoly_abs p) (N.to_nat e) d.
Proof.
  intros chk f powi fuel p r e q O Hp H Hr Gp Hq d.
  destruct (pow_apx chk f powi fuel p e r q Hp H Hr Gp Hq) as [_ K]. specialize (K d). destruct K as [_ K]. rewrite Rplus_0_r in K.
  rewrite (@ppow_ext R_ring _ (rpoly p) _ (rpoly_dcoef p) d) in K.
  rewrite (@ppow_ext R_ring _ (rpoly_abs p) _ (rpoly_abs_dcoef p) d) in K.
  rewrite (rpoly_dcoef r) in K. exact K.
Qed.

(** Integer coefficients, however large: no condition on underflow is needed. *)
Theorem C102_integers : forall chk f powi fuel (p r : list (flt f)) (e : N), let O := float_num chk f powi in
  vec_ok O p -> dense_pow O fuel p e = Ok r -> (forall d, is_finite (vcoef r d) = true) ->
  (forall d, exists z : Z, B2R (vcoef p d) = IZR z) ->
  forall d, Rabs (B2R (vcoef r d) - ppow (rpoly p) (N.to_nat e) d) <=
    ((1 + uro f) ^ pow_roundings (length p) (N.to_nat e) - 1) * ppow (rpoly_abs p) (N.to_nat e) d.
Proof.
  intros chk f powi fuel p r e O Hp H Hr Gp. apply (C102_power chk f powi fuel p r e 0%Z Hp H Hr).
  - intros d. destruct (Gp d) as [z E]. exists z. rewrite E. cbn. ring.
  - rewrite Z.mul_0_r. destruct f; vm_compute; discriminate.
Qed.

(** Positive coefficients: a relative error bound. *)
Theorem C102_positive : forall chk f powi fuel (p r : list (flt f)) (e : N) (q : Z), let O := float_num chk f powi in
  vec_ok O p -> dense_pow O fuel p e = Ok r -> (forall d, is_finite (vcoef r d) = true) ->
  grid q p -> (SpecFloat.emin (fprec f) (femax f) <= Z.of_N e * q)%Z -> (forall d, 0 <= B2R (vcoef p d)) ->
  forall d, Rabs (B2R (vcoef r d) - ppow (rpoly p) (N.to_nat e) d) <=
    ((1 + uro f) ^ pow_roundings (length p) (N.to_nat e) - 1) * ppow (rpoly p) (N.to_nat e) d.
Proof.
  intros chk f powi fuel p r e q O Hp H Hr Gp Hq Hpos d. eapply Rle_trans; [apply (C102_power chk f powi fuel p r e q Hp H Hr Gp Hq)|].
  right. f_equal. apply (@ppow_ext R_ring). intros i. unfold rpoly_abs, rpoly. apply Rabs_pos_eq, Hpos.
Qed.

(** The spacing matters: the square of 2^-600 x + 1 in f64 has lost its first coefficient altogether. *)
Theorem C102_spacing_needed : forall powi, let O := float_num true F64 powi in
  exists p r : list (flt F64), vec_ok O p /\ dense_pow O 2 p 2 = Ok r /\ (forall d, is_finite (vcoef r d) = true) /\
  ~ forall d, Rabs (B2R (vcoef r d) - ppow (rpoly p) 2%nat d) <= ((1 + uro F64) ^ pow_roundings (length p) 2 - 1) * ppow (rpoly_abs p) 2 d.
Proof.
  intros powi O. set (t := fdiv (f_of_Z F64 1) (f_of_Z F64 (2 ^ 600))). set (p := [t; f_of_Z F64 1]).
  assert (S : rmap (map B2SF) (dense_pow O 2 p 2) = Ok [SpecFloat.S754_finite false (2 ^ 52) (-651); SpecFloat.S754_finite false (2 ^ 52) (-52)])
    by (vm_compute; reflexivity).
  assert (St : B2SF t = SpecFloat.S754_finite false (2 ^ 52) (-652)) by (vm_compute; reflexivity).
  assert (S1 : B2SF (f_of_Z F64 1) = SpecFloat.S754_finite false (2 ^ 52) (-52)) by (vm_compute; reflexivity).
  apply rmap_ok in S. destruct S as (r & Hr & Sr).
  exists p, r. split; [vm_compute; discriminate|]. split; [exact Hr|]. clear Hr.
  apply map_two in Sr. destruct Sr as (x & y & -> & Sx & Sy).
  assert (Hx : is_finite x = true) by (rewrite <- is_finite_SF_B2SF; rewrite Sx; reflexivity).
  assert (Hy : is_finite y = true) by (rewrite <- is_finite_SF_B2SF; rewrite Sy; reflexivity).
  split; [intros [|[|[|d]]]; cbn; assumption || reflexivity|].
  intros K. specialize (K 2%nat).
  assert (Bt : 0 < B2R t) by (rewrite <- SF2R_B2SF, St; unfold SF2R; apply F2R_gt_0; reflexivity).
  assert (P : ppow (rpoly p) 2%nat 2%nat = B2R t * B2R t).
  { assert (E2 : rpoly p 2%nat = 0) by reflexivity. assert (E1 : rpoly p 1%nat = B2R t) by reflexivity.
    rewrite sq_two by exact E2. rewrite E1. reflexivity. }
  assert (PA : ppow (rpoly_abs p) 2%nat 2%nat = B2R t * B2R t).
  { assert (E2 : rpoly_abs p 2%nat = 0) by apply Rabs_R0. assert (E1 : rpoly_abs p 1%nat = B2R t) by (apply Rabs_pos_eq; lra).
    rewrite sq_two by exact E2. rewrite E1. reflexivity. }
  rewrite P, PA in K. change (B2R (vcoef [x; y] 2%nat)) with 0 in K. change (pow_roundings (length p) 2%nat) with 3%nat in K.
  pose proof (@uro_pos F64) as U0. pose proof (@uro_small F64) as U1. rewrite Rminus_0_l, Rabs_Ropp, Rabs_pos_eq in K by nra.
  set (w := B2R t * B2R t) in *. assert (0 < w) by (unfold w; nra). assert ((1 + uro F64) ^ 3 - 1 < 1) by (cbn [pow]; nra). nra.
Qed.

(** (0.1x + 1)^5 in f32: two squarings and a product, on numbers spaced by 2^-27. *)
Example C102_case : forall powi, let O := float_num true F32 powi in
  let t := fdiv (f_of_Z F32 1) (f_of_Z F32 10) in let p := [t; f_of_Z F32 1] in
  vec_ok O p /\ grid (-27) p /\ (SpecFloat.emin (fprec F32) (femax F32) <= 5 * -27)%Z /\
  rmap (map B2SF) (dense_pow O 9 p 5) = Ok [SpecFloat.S754_finite false 10995118 (-40);
    SpecFloat.S754_finite false 8589935 (-34); SpecFloat.S754_finite false 10737419 (-30); SpecFloat.S754_finite false 13421774 (-27);
    SpecFloat.S754_finite false 8388608 (-24); SpecFloat.S754_finite false 8388608 (-23)].
Proof.
  intros powi O t p. split; [vm_compute; discriminate|]. split; [|split; [vm_compute; discriminate|]].
  - assert (St : B2SF t = SpecFloat.S754_finite false 13421773 (-27)) by (vm_compute; reflexivity).
    assert (S1 : B2R (f_of_Z F32 1) = 1) by (apply (f_of_Z_small F32 1%Z); vm_compute; discriminate).
    intros [|[|d]].
    + exists (2 ^ 27)%Z. change (vcoef p 0) with (f_of_Z F32 1). rewrite S1. change (2 ^ 27)%Z with (radix2 ^ 27)%Z. rewrite IZR_Zpower by lia. rewrite <- bpow_plus. reflexivity.
    + exists 13421773%Z. change (vcoef p 1) with t. rewrite <- SF2R_B2SF, St. reflexivity.
    + exists 0%Z. rewrite Rmult_0_l. destruct d; reflexivity.
  - vm_compute. reflexivity.
Qed.

Print Assumptions C102_power.
Print Assumptions C102_integers.
Print Assumptions C102_positive.
Print Assumptions C102_spacing_needed.
