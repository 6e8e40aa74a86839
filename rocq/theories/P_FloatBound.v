(** Property C107: bounds on the coefficients and on the point of a float polynomial bound the computed results. *)

From Coq Require Import List NArith ZArith Reals Lia Lra Psatz Bool Arith.
From Coq Require Import ZifyBool ZifyNat ZifyN.
From Flocq Require Import Core BinarySingleNaN.
From Verif Require Import Base Num Spec SpecFacts Laws Dense DenseFacts DenseArith DenseMul DenseCalc Sparse SparseFacts RealNum Floats FloatFacts FloatErr FloatEval FloatCoef Coef FloatMul P_FloatErr P_FloatPow P_FloatPowi P_FloatPolyPow.
Import ListNotations.
Local Open Scope R_scope.

(** ** Specification *)

(** [x] and [X] are finite, and [x] lies between -[X] and [X]. *)
Definition within {f} (x X : flt f) : Prop := is_finite x = true /\ is_finite X = true /\ Rabs (B2R x) <= B2R X.

(** Every coefficient of [a] is bounded so by the one of [A]; the lengths may differ. *)
Definition bounded {f} (a A : list (flt f)) : Prop := forall d, within (vcoef a d) (vcoef A d).

(** The same for maps from degrees to coefficients; and for maps that store the same degrees. *)
Definition sbounded {f} (a A : bmap (flt f)) : Prop := forall k, within (mcoef a k) (mcoef A k).
Definition stored_bounded {f} (a A : bmap (flt f)) : Prop :=
  Forall2 (fun u v => fst u = fst v /\ within (snd u) (snd v)) a A.

(** ** One operation *)

Lemma abs_le_0 r : Rabs r <= 0 -> r = 0.
Proof. intros H. unfold Rabs in H. destruct (Rcase_abs r); lra. Qed.

Section Dom.
Context {f : fty}.
Notation prec := (fprec f).
Notation emax := (femax f).
Notation rnd := (Generic_fmt.round radix2 (SpecFloat.fexp (fprec f) (femax f)) (round_mode mode_NE)).
Implicit Types x X a b c t : flt f.

Definition dom x X : Prop := is_finite X = true -> is_finite x = true /\ Rabs (B2R x) <= B2R X.

Lemma within_dom x X : within x X -> dom x X.
Proof. intros (H1 & _ & H3) _. split; assumption. Qed.
Lemma dom_within x X : dom x X -> is_finite X = true -> within x X.
Proof. intros H F. destruct (H F) as [H1 H2]. repeat split; assumption. Qed.

Lemma rnd_abs_le r s : Rabs r <= s -> Rabs (rnd r) <= rnd s.
Proof.
  intros H. assert (V : Valid_exp (SpecFloat.fexp prec emax)) by (apply fexp_correct; exact (fprec_pos f)).
  apply Rabs_le. apply Rabs_le_inv in H. split.
  - rewrite <- round_NE_opp. apply round_le; [exact V|apply valid_rnd_N|lra].
  - apply round_le; [exact V|apply valid_rnd_N|lra].
Qed.

Lemma fsame_dom x y X Y : fsame x y -> fsame X Y -> dom y Y -> dom x X.
Proof.
  intros H1 H2 D F. apply fsame_B in H1, H2. destruct H1 as [E1 F1], H2 as [E2 F2]. rewrite E1, F1, E2. apply D. congruence.
Qed.

Lemma dom_zero X : (is_finite X = true -> 0 <= B2R X) -> dom (fzero f) X.
Proof. intros H F. split; [reflexivity|]. change (B2R (fzero f)) with 0. rewrite Rabs_R0. auto. Qed.
Lemma dom_pos x X : dom x X -> is_finite X = true -> 0 <= B2R X.
Proof. intros H F. destruct (H F) as [_ K]. pose proof (Rabs_pos (B2R x)). lra. Qed.

Lemma fdiv_finite a b : is_finite a = true -> B2R b <> 0 -> Rabs (rnd (B2R a / B2R b)) < bpow radix2 emax ->
  is_finite (fdiv a b) = true.
Proof.
  intros Ha Hb H. pose proof (Bdiv_correct prec emax _ _ mode_NE a b Hb) as K.
  rewrite Rlt_bool_true in K by exact H. destruct K as (_ & K & _). unfold fdiv. rewrite K. exact Ha.
Qed.
Lemma fsub_finite a b : is_finite a = true -> is_finite b = true -> Rabs (rnd (B2R a - B2R b)) < bpow radix2 emax ->
  is_finite (fsub a b) = true.
Proof.
  intros Ha Hb H. pose proof (Bminus_correct prec emax _ _ mode_NE a b Ha Hb) as K.
  rewrite Rlt_bool_true in K by exact H. apply K.
Qed.

Lemma below X r : B2R X = rnd r -> 0 <= rnd r -> rnd r < bpow radix2 emax.
Proof. intros E P. rewrite <- E. pose proof (abs_B2R_lt_emax prec emax X) as K. rewrite Rabs_pos_eq in K by lra. exact K. Qed.

Lemma dom_add a A b C : dom a A -> dom b C -> dom (fadd a b) (fadd A C).
Proof.
  intros Ha Hb F. destruct (fadd_operands _ _ F) as [FA FC]. destruct (Ha FA) as [Fa Da]. destruct (Hb FC) as [Fb Db].
  pose proof (fadd_round _ _ F) as E.
  assert (D : Rabs (rnd (B2R a + B2R b)) <= rnd (B2R A + B2R C)) by (apply rnd_abs_le; eapply Rle_trans; [apply Rabs_triang|lra]).
  pose proof (Rabs_pos (rnd (B2R a + B2R b))). pose proof (below _ _ E ltac:(lra)).
  assert (G : is_finite (fadd a b) = true) by (apply fadd_finite; [exact Fa|exact Fb|lra]).
  split; [exact G|]. rewrite (fadd_round _ _ G), E. exact D.
Qed.
Lemma dom_sub a A b C : dom a A -> dom b C -> dom (fsub a b) (fadd A C).
Proof.
  intros Ha Hb F. destruct (fadd_operands _ _ F) as [FA FC]. destruct (Ha FA) as [Fa Da]. destruct (Hb FC) as [Fb Db].
  pose proof (fadd_round _ _ F) as E.
  assert (D : Rabs (rnd (B2R a - B2R b)) <= rnd (B2R A + B2R C)).
  { apply rnd_abs_le. unfold Rminus. eapply Rle_trans; [apply Rabs_triang|]. rewrite Rabs_Ropp. lra. }
  pose proof (Rabs_pos (rnd (B2R a - B2R b))). pose proof (below _ _ E ltac:(lra)).
  assert (G : is_finite (fsub a b) = true) by (apply fsub_finite; [exact Fa|exact Fb|lra]).
  split; [exact G|]. rewrite (fsub_round _ _ G), E. exact D.
Qed.
Lemma dom_mul a A b C : dom a A -> dom b C -> dom (fmul a b) (fmul A C).
Proof.
  intros Ha Hb F. destruct (fmul_operands _ _ F) as [FA FC]. destruct (Ha FA) as [Fa Da]. destruct (Hb FC) as [Fb Db].
  pose proof (fmul_round _ _ F) as E.
  assert (D : Rabs (rnd (B2R a * B2R b)) <= rnd (B2R A * B2R C)).
  { apply rnd_abs_le. rewrite Rabs_mult. apply Rmult_le_compat; auto using Rabs_pos. }
  pose proof (Rabs_pos (rnd (B2R a * B2R b))). pose proof (below _ _ E ltac:(lra)).
  assert (G : is_finite (fmul a b) = true) by (apply fmul_finite; [exact Fa|exact Fb|lra]).
  split; [exact G|]. rewrite (fmul_round _ _ G), E. exact D.
Qed.
Lemma dom_div a A b C : within a A -> 0 < B2R C <= Rabs (B2R b) -> dom (fdiv a b) (fdiv A C).
Proof.
  intros (Fa & FA & Da) [C0 CB] F. 
  assert (b0 : B2R b <> 0) by (intros E; rewrite E, Rabs_R0 in CB; lra).
  pose proof (fdiv_round A C ltac:(lra) F) as E.
  assert (D : Rabs (rnd (B2R a / B2R b)) <= rnd (B2R A / B2R C)).
  { apply rnd_abs_le. unfold Rdiv. rewrite Rabs_mult, Rabs_inv. apply Rmult_le_compat; [apply Rabs_pos| |exact Da|].
    - apply Rlt_le, Rinv_0_lt_compat. lra.
    - apply Rinv_le; lra. }
  pose proof (Rabs_pos (rnd (B2R a / B2R b))). pose proof (below _ _ E ltac:(lra)).
  assert (G : is_finite (fdiv a b) = true) by (apply fdiv_finite; [exact Fa|exact b0|lra]).
  split; [exact G|]. rewrite (fdiv_round _ _ b0 G), E. exact D.
Qed.

(** Adding something nonnegative to the bound. *)
Lemma dom_more t a A : dom t a -> (is_finite A = true -> 0 <= B2R A) -> dom t (fadd a A).
Proof.
  intros H P F. destruct (fadd_operands _ _ F) as [Fa FA]. destruct (H Fa) as [Ft D]. split; [exact Ft|].
  rewrite (fadd_round _ _ F). rewrite <- (rnd_B2R a) in D. eapply Rle_trans; [exact D|].
  assert (V : Valid_exp (SpecFloat.fexp prec emax)) by (apply fexp_correct; exact (fprec_pos f)).
  apply round_le; [exact V|apply valid_rnd_N|]. specialize (P FA). lra.
Qed.
(** Adding something of value zero to the bounded one. *)
Lemma dom_zero_r t T a : is_finite a = true -> B2R a = 0 -> dom t T -> dom (fadd t a) T.
Proof.
  intros Fa Ea H F. destruct (H F) as [Ft D].
  assert (K : rnd (B2R t + B2R a) = B2R t) by (rewrite Ea, Rplus_0_r; apply rnd_B2R).
  assert (G : is_finite (fadd t a) = true) by (apply fadd_finite; [exact Ft|exact Fa|rewrite K; apply abs_B2R_lt_emax]).
  split; [exact G|]. rewrite (fadd_round _ _ G), K. exact D.
Qed.
Lemma zero_mul x y : is_finite x = true -> is_finite y = true -> B2R x = 0 \/ B2R y = 0 -> is_finite (fmul x y) = true /\ B2R (fmul x y) = 0.
Proof.
  intros Fx Fy H. assert (E : B2R x * B2R y = 0) by (destruct H as [-> | ->]; ring).
  assert (K : rnd (B2R x * B2R y) = 0) by (rewrite E; apply round_0, valid_rnd_N).
  assert (G : is_finite (fmul x y) = true).
  { apply fmul_finite; [exact Fx|exact Fy|]. rewrite K, Rabs_R0. apply bpow_gt_0. }
  split; [exact G|]. rewrite (fmul_round _ _ G). exact K.
Qed.
Lemma finite_zero x : is_finite x = true -> B2R x = 0 -> exists s, x = B754_zero s.
Proof.
  destruct x as [s|s| |s m e H]; intros F E; try discriminate F; [eauto|]. exfalso. cbn in E. apply eq_0_F2R in E. destruct s; discriminate.
Qed.
End Dom.

(** ** Evaluation *)
Section Eval.
Context (chk : bool) (f : fty) (powi : flt f -> N -> flt f).
Notation O := (float_num chk f powi).
Notation c := (cf (fzero f)).

Lemma cf_snoc_0 (l : list (flt f)) (x : flt f) : c (l ++ [x]) 0%nat = x.
Proof. rewrite cf_snoc. reflexivity. Qed.
Lemma cf_snoc_S (l : list (flt f)) (x : flt f) d : c (l ++ [x]) (S d) = c l d.
Proof. rewrite cf_snoc. reflexivity. Qed.

Lemma horner_dom x X : within x X -> forall n l L s S', (length l + length L <= n)%nat -> bounded l L ->
  horner O x l = Ok s -> horner O X L = Ok S' -> dom s S'.
Proof.
  intros Hx. assert (HX : is_finite X = true) by apply Hx.
  assert (ZZ : is_finite (fadd (fzero f) (fzero f)) = true /\ B2R (fadd (fzero f) (fzero f)) = 0) by (split; reflexivity).
  assert (ZX : is_finite (fmul (fadd (fzero f) (fzero f)) X) = true /\ B2R (fmul (fadd (fzero f) (fzero f)) X) = 0).
  { apply zero_mul; [apply ZZ|exact HX|left; apply ZZ]. }
  assert (Z0 : forall s : flt f, dom s (fmul (fadd (fzero f) (fzero f)) X) -> dom s (fzero f)).
  { intros s D _. destruct (D (proj1 ZX)) as [D1 D2]. rewrite (proj2 ZX) in D2. split; [exact D1|exact D2]. }
  assert (Z1 : forall (y : flt f) Y, dom y Y -> dom (fzero f) Y) by (intros y Y D; apply dom_zero, (dom_pos y), D).
  assert (T : forall (a b : list (flt f)), bounded a b -> forall d, dom (c a d) (c b d)) by (intros a b H d; apply within_dom, H).
  induction n as [|n IH]; intros l L s S' Hn HB Hs HS.
  - destruct l; [|cbn in Hn; lia]. destruct L; [|cbn in Hn; lia]. cbn in Hs, HS. injection Hs as <-. injection HS as <-. intros _. split; [reflexivity|]. cbn. rewrite Rabs_R0. lra.
  - destruct l as [|k l _] using rev_ind; destruct L as [|K L _] using rev_ind.
    + cbn in Hs, HS. injection Hs as <-. injection HS as <-. intros _. split; [reflexivity|]. cbn. rewrite Rabs_R0. lra.
    + rewrite horner_snoc in HS. apply bind_ok in HS. destruct HS as (S1 & H1 & HS). injection HS as <-. injection Hs as <-.
      assert (D : dom (fzero f) S1).
      { apply (IH [] L (fzero f) S1); [rewrite app_length in Hn; cbn in *; lia| |reflexivity|exact H1].
        intros d. pose proof (HB (S d)) as Q. change (vcoef (L ++ [K]) (S d)) with (c (L ++ [K]) (S d)) in Q. rewrite cf_snoc_S in Q.
        change (vcoef (@nil (flt f)) (S d)) with (c (@nil (flt f)) (S d)) in Q. rewrite cf_nil in Q.
        change (vcoef (@nil (flt f)) d) with (c (@nil (flt f)) d). rewrite cf_nil. exact Q. }
      assert (DK : dom (fzero f) K).
      { pose proof (T _ _ HB 0%nat) as Q. rewrite cf_snoc_0, cf_nil in Q. exact Q. }
      eapply fsame_dom; [|apply fsame_refl|apply dom_mul; [apply dom_add; [exact D|exact DK]|apply within_dom, Hx]].
      destruct Hx as (Fx & _ & _). destruct x as [sx|sx| |sx mx ex Bx]; try discriminate Fx; cbn; apply fsame_zeros.
    + rewrite horner_snoc in Hs. apply bind_ok in Hs. destruct Hs as (s1 & H1 & Hs). injection Hs as <-. injection HS as <-.
      assert (D : dom s1 (fzero f)).
      { apply (IH l [] s1 (fzero f)); [rewrite app_length in Hn; cbn in *; lia| |exact H1|reflexivity].
        intros d. pose proof (HB (S d)) as Q. change (vcoef (l ++ [k]) (S d)) with (c (l ++ [k]) (S d)) in Q. rewrite cf_snoc_S in Q.
        change (vcoef (@nil (flt f)) (S d)) with (c (@nil (flt f)) (S d)) in Q. rewrite cf_nil in Q.
        change (vcoef (@nil (flt f)) d) with (c (@nil (flt f)) d). rewrite cf_nil. exact Q. }
      assert (DK : dom k (fzero f)).
      { pose proof (T _ _ HB 0%nat) as Q. rewrite cf_snoc_0, cf_nil in Q. exact Q. }
      apply Z0. apply dom_mul; [apply dom_add; assumption|apply within_dom, Hx].
    + rewrite horner_snoc in Hs, HS. apply bind_ok in Hs. destruct Hs as (s1 & H1 & Hs). injection Hs as <-.
      apply bind_ok in HS. destruct HS as (S1 & H2 & HS). injection HS as <-.
      assert (D : dom s1 S1).
      { apply (IH l L s1 S1); [rewrite !app_length in Hn; cbn in *; lia| |exact H1|exact H2].
        intros d. pose proof (HB (S d)) as Q. change (vcoef (l ++ [k]) (S d)) with (c (l ++ [k]) (S d)) in Q. change (vcoef (L ++ [K]) (S d)) with (c (L ++ [K]) (S d)) in Q.
        rewrite !cf_snoc_S in Q. exact Q. }
      assert (DK : dom k K).
      { pose proof (T _ _ HB 0%nat) as Q. rewrite !cf_snoc_0 in Q. exact Q. }
      apply dom_mul; [apply dom_add; assumption|apply within_dom, Hx].
Qed.

(** At a zero point the last coefficient is returned; the other branch would give the same value. *)
Lemma eval_as_sum x l : is_finite x = true -> (forall d, is_finite (c l d) = true) -> exists r s, dense_eval O l x = Ok r /\ horner O x (removelast l) = Ok s /\
  fsame r (if is_zero O x then c l 0%nat else fadd s (c l 0%nat)).
Proof.
  intros Fx Fl. unfold dense_eval. pose proof (split_last_spec l) as Hl. destruct (split_last l) as [[k t]|].
  - subst l. rewrite removelast_last, cf_snoc_0. destruct (horner_ok chk f powi x t) as (s & Hs). rewrite Hs. cbn [bind].
    destruct (is_zero O x); eexists; exists s; (split; [reflexivity|]); (split; [reflexivity|]); apply fsame_refl.
  - subst l. exists (fzero f), (fzero f). split; [reflexivity|]. split; [reflexivity|]. rewrite cf_nil. destruct (is_zero O x); apply fsame_zeros.
Qed.

Lemma eval_dom x X l L r R' : within x X -> bounded l L -> dense_eval O l x = Ok r -> dense_eval O L X = Ok R' -> dom r R'.
Proof.
  intros Hx HB Hr HR.
  destruct (eval_as_sum x l) as (r1 & s & E1 & Es & Q1); [apply Hx|intros d; apply HB|].
  destruct (eval_as_sum X L) as (R1 & S' & E2 & ES & Q2); [apply Hx|intros d; apply HB|].
  assert (r1 = r) by congruence. assert (R1 = R') by congruence. subst r1 R1. clear E1 E2.
  eapply fsame_dom; [exact Q1|exact Q2|]. clear Q1 Q2.
  assert (RL : forall (a : list (flt f)) d, c (removelast a) d = c a (S d)).
  { intros a d. destruct a as [|k a _] using rev_ind; [destruct d; reflexivity|]. rewrite removelast_last, cf_snoc_S. reflexivity. }
  assert (HB' : bounded (removelast l) (removelast L)).
  { intros d. pose proof (HB (S d)) as Q. unfold vcoef. change (within (c (removelast l) d) (c (removelast L) d)). rewrite !RL. exact Q. }
  pose proof (horner_dom x X Hx _ _ _ _ _ (Nat.le_refl _) HB' Es ES) as D.
  pose proof (within_dom _ _ (HB 0%nat)) as D0. fold (c l 0%nat) in D0. change (vcoef l 0%nat) with (c l 0%nat) in D0. change (vcoef L 0%nat) with (c L 0%nat) in D0.
  destruct (is_zero O X) eqn:ZX.
  - apply is_zero_B in ZX. destruct ZX as [ZX _].
    replace (is_zero O x) with true; [exact D0|]. symmetry. destruct Hx as (Fx & _ & Dx). rewrite ZX in Dx.
    assert (x0 : B2R x = 0) by (apply abs_le_0; exact Dx).
    destruct (finite_zero x Fx x0) as [sg ->]. destruct sg; reflexivity.
  - destruct (is_zero O x) eqn:Zx; [|apply dom_add; assumption].
    rewrite fadd_comm. apply dom_more; [exact D0|]. apply (dom_pos s), D.
Qed.

(** ** Multiplication *)

Definition term_at (rhs lhs : list (flt f)) (d j : nat) : list (flt f * flt f) :=
  if negb (is_zero O (c rhs j)) && ((j <=? d)%nat && (d <? j + length lhs)%nat) then [(c rhs j, c lhs (d - j))] else [].
Fixpoint all_terms (K : nat) (rhs lhs : list (flt f)) (d : nat) : list (flt f * flt f) :=
  match K with 0%nat => [] | S j => term_at rhs lhs d j ++ all_terms j rhs lhs d end.

Lemma all_terms_ext K rhs rhs' lhs d : (forall j, (j < K)%nat -> c rhs j = c rhs' j) -> all_terms K rhs lhs d = all_terms K rhs' lhs d.
Proof.
  intros H. induction K as [|K IH]; [reflexivity|]. cbn [all_terms]. unfold term_at. rewrite (H K) by lia. f_equal. apply IH. intros j Hj. apply H. lia.
Qed.
Lemma prods_terms rhs lhs d : prods chk f powi rhs lhs d = all_terms (length rhs) rhs lhs d.
Proof.
  induction rhs as [|rt rhs IH]; [reflexivity|]. cbn [prods length all_terms]. rewrite IH. f_equal.
  - unfold term_at. rewrite cf_cons, Nat.eqb_refl. reflexivity.
  - apply all_terms_ext. intros j Hj. rewrite cf_cons. replace (j =? length rhs)%nat with false by lia. reflexivity.
Qed.
Lemma all_terms_more K rhs lhs d : (length rhs <= K)%nat -> all_terms K rhs lhs d = all_terms (length rhs) rhs lhs d.
Proof.
  intros H. induction K as [|K IH]; [replace (length rhs) with 0%nat by lia; reflexivity|].
  destruct (Nat.eq_dec (length rhs) (S K)) as [->|E]; [reflexivity|]. cbn [all_terms]. unfold term_at. rewrite cf_overflow by lia.
  change (is_zero O (fzero f)) with true. cbn [negb andb app]. apply IH. lia.
Qed.

Lemma dot_dom b B' a A d : bounded b B' -> bounded a A -> forall K t T, dom t T ->
  dom (dot t (all_terms K b a d)) (dot T (all_terms K B' A d)).
Proof.
  intros Hb Ha. induction K as [|K IH]; intros t T D; [exact D|]. cbn [all_terms]. unfold dot. rewrite !fold_left_app. apply IH. clear IH.
  unfold term_at. pose proof (Hb K) as Wb. change (within (c b K) (c B' K)) in Wb.
  assert (Wa : within (c a (d - K)) (c A (d - K))) by apply Ha.
  destruct (Nat.leb_spec K d) as [Kd|Kd]; cbn [andb]; [|rewrite !andb_false_r; exact D].
  set (p := negb (is_zero O (c b K)) && (d <? K + length a)%nat). set (P := negb (is_zero O (c B' K)) && (d <? K + length A)%nat).
  assert (DM : dom (fmul (c b K) (c a (d - K))) (fmul (c B' K) (c A (d - K)))) by (apply dom_mul; apply within_dom; assumption).
  assert (Small : P = false -> is_finite (fmul (c b K) (c a (d - K))) = true /\ B2R (fmul (c b K) (c a (d - K))) = 0).
  { intros HP. apply zero_mul; [apply Wb|apply Wa|].
    assert (Z : B2R (c B' K) = 0 \/ B2R (c A (d - K)) = 0).
    { unfold P in HP. apply andb_false_iff in HP. destruct HP as [HP|HP].
      - left. apply negb_false_iff, is_zero_B in HP. apply HP.
      - right. rewrite cf_overflow by lia. reflexivity. }
    destruct Wb as (_ & _ & Wb), Wa as (_ & _ & Wa).
    destruct Z as [Z|Z]; [left; rewrite Z in Wb; apply abs_le_0, Wb|right; rewrite Z in Wa; apply abs_le_0, Wa]. }
  destruct p; destruct P; cbn [fold_left fst snd].
  - apply dom_add; assumption.
  - destruct (Small eq_refl). apply dom_zero_r; assumption.
  - apply dom_more; [exact D|]. apply (dom_pos _ _ DM).
  - exact D.
Qed.

Lemma bounded_strip a A : bounded a A <-> bounded (strip O a) (strip O A).
Proof.
  assert (W : forall (x x' X X' : flt f), fsame x x' -> fsame X X' -> within x X -> within x' X').
  { intros x x' X X' H1 H2 (K1 & K2 & K3). apply fsame_B in H1, H2. destruct H1 as [E1 F1], H2 as [E2 F2].
    unfold within. rewrite <- E1, <- E2, <- F1, <- F2. auto. }
  split; intros H d.
  - eapply W; [apply fsame_sym, (strip_same chk f powi)|apply fsame_sym, (strip_same chk f powi)|apply (H d)].
  - eapply W; [apply (strip_same chk f powi)|apply (strip_same chk f powi)|apply (H d)].
Qed.

Lemma mul_dom a A b B' r R' : vec_ok O a -> vec_ok O A -> vec_ok O b -> vec_ok O B' -> bounded a A -> bounded b B' ->
  slice_mul O a b = Ok r -> slice_mul O A B' = Ok R' -> forall d, dom (c r d) (c R' d).
Proof.
  intros Va VA Vb VB Ha Hb Hr HR d.
  destruct (slice_mul_dot chk f powi a b r Va Vb Hr) as [_ E1]. destruct (slice_mul_dot chk f powi A B' R' VA VB HR) as [_ E2].
  rewrite E1, E2, !prods_terms. set (K := Nat.max (length (strip O b)) (length (strip O B'))).
  rewrite <- (all_terms_more K (strip O b)) by (unfold K; lia). rewrite <- (all_terms_more K (strip O B')) by (unfold K; lia).
  apply dot_dom; [apply (proj1 (bounded_strip _ _)), Hb|apply (proj1 (bounded_strip _ _)), Ha|]. intros _. split; [reflexivity|]. cbn. rewrite Rabs_R0. lra.
Qed.

Lemma mul_ref_dom a A b B' r R' : vec_ok O a -> vec_ok O A -> vec_ok O b -> vec_ok O B' -> bounded a A -> bounded b B' ->
  dense_mul_ref O a b = Ok r -> dense_mul_ref O A B' = Ok R' -> forall d, dom (c r d) (c R' d).
Proof.
  intros Va VA Vb VB Ha Hb Hr HR d. unfold dense_mul_ref in *. apply bind_ok in Hr, HR. destruct Hr as (t & Ht & Hr), HR as (T & HT & HR).
  rewrite dense_new_ok in Hr, HR. injection Hr as <-. injection HR as <-.
  eapply fsame_dom; [apply (strip_same chk f powi)|apply (strip_same chk f powi)|]. apply (mul_dom a A b B' t T); assumption.
Qed.

Lemma mul_ref_fin a b r : vec_ok O a -> vec_ok O b -> dense_mul_ref O a b = Ok r -> strip O a <> [] -> fin _ r -> fin _ b.
Proof.
  intros Va Vb H Na Hr. unfold dense_mul_ref in H. apply bind_ok in H. destruct H as (t & Ht & H). rewrite dense_new_ok in H. injection H as <-.
  apply (proj1 (fin_strip chk f powi _)) in Hr. destruct (strip O b) as [|x y] eqn:Eb.
  - apply (proj1 (fin_strip chk f powi _)). rewrite Eb. intros d. unfold cf. destruct d; reflexivity.
  - apply (mul_fin chk f powi a b t Va Vb Ht Na); [rewrite Eb; discriminate|exact Hr].
Qed.
Lemma mul_ref_nonzero a r : vec_ok O a -> dense_mul_ref O a a = Ok r -> strip O a <> [].
Proof.
  intros Va H. unfold dense_mul_ref in H. apply bind_ok in H. destruct H as (t & Ht & _).
  destruct (slice_mul_dot chk f powi a a t Va Va Ht) as [Lt _]. intros E. rewrite E in Lt. cbn in Lt. lia.
Qed.

Lemma bounded_of a A : fin _ A -> (forall d, dom (c a d) (c A d)) -> bounded a A.
Proof. intros F D d. apply dom_within; [apply D|apply F]. Qed.

Lemma pow_bounded fuel : forall p P e r R', vec_ok O p -> vec_ok O P -> bounded p P ->
  dense_pow O fuel p e = Ok r -> dense_pow O fuel P e = Ok R' -> fin _ R' -> bounded r R'.
Proof.
  induction fuel as [|fuel IH]; intros p P e r R' Vp VP HB Hr HR FR; [discriminate|].
  pose proof (pow_zero chk f powi (S fuel) P e R' VP) as Z0. specialize (fun X => Z0 X HR).
  cbn [dense_pow] in Hr, HR. destruct (N.eqb_spec e 0) as [->|E0].
  { injection Hr as <-. injection HR as <-. intros [|d]; [|destruct d; repeat split; try reflexivity; cbn; rewrite Rabs_R0; lra].
    change (within (f_of_Z f 1) (f_of_Z f 1)). destruct (f_of_Z_small f 1%Z) as [K1 K2]; [destruct f; vm_compute; discriminate|].
    split; [exact K2|]. split; [exact K2|]. rewrite K1, Rabs_R1. lra. }
  destruct (N.eqb_spec e 1) as [->|E1].
  { rewrite dense_new_ok in Hr, HR. injection Hr as <-. injection HR as <-. apply (proj1 (bounded_strip _ _)), HB. }
  destruct (N.eqb_spec e 2) as [->|E2].
  { apply bounded_of; [exact FR|]. apply (mul_ref_dom p P p P); assumption. }
  destruct (N.eqb_spec (e mod 2) 0) as [Em|Em]; apply bind_ok in Hr, HR; destruct Hr as (h & Hh & Hr), HR as (H & HH & HR);
    destruct (pow_shape chk f powi _ _ _ _ Vp Hh) as [Vh _]; destruct (pow_shape chk f powi _ _ _ _ VP HH) as [VH _].
  - destruct fuel as [|fuel']; [discriminate|]. cbn [dense_pow] in Hr, HR.
    change ((2 =? 0)%N) with false in Hr, HR. change ((2 =? 1)%N) with false in Hr, HR. change ((2 =? 2)%N) with true in Hr, HR. cbv iota in Hr, HR.
    assert (FH : fin _ H) by (apply (mul_ref_fin H H R' VH VH HR); [apply (mul_ref_nonzero H R' VH HR)|exact FR]).
    pose proof (IH p P _ h H Vp VP HB Hh HH FH) as Bh.
    apply bounded_of; [exact FR|]. apply (mul_ref_dom h H h H); assumption.
  - assert (FH : fin _ H) by (apply (mul_ref_fin P H R' VP VH HR); [apply Z0; lia|exact FR]).
    pose proof (IH p P _ h H Vp VP HB Hh HH FH) as Bh.
    apply bounded_of; [exact FR|]. apply (mul_ref_dom p P h H); assumption.
Qed.
End Eval.

Section Rest.
Context {f : fty}.
Lemma mul_pad (x n : flt f) (b : bool) : is_finite n = true -> (b = false -> x = fzero f) -> fsame (if b then fmul x n else fzero f) (fmul x n).
Proof.
  intros F H. destruct b; [apply fsame_refl|]. rewrite (H eq_refl). destruct n; try discriminate F; cbn; apply fsame_zeros.
Qed.
Lemma div_pad (x n : flt f) (b : bool) : is_finite n = true -> B2R n <> 0 -> (b = false -> x = fzero f) -> fsame (if b then fdiv x n else fzero f) (fdiv x n).
Proof.
  intros F N0 H. destruct b; [apply fsame_refl|]. rewrite (H eq_refl). destruct n as [s|s| |s m e Hb]; try discriminate F; [cbn in N0; lra|cbn; apply fsame_zeros].
Qed.
Lemma zero_within : within (fzero f) (fzero f).
Proof. repeat split. change (B2R (fzero f)) with 0. rewrite Rabs_R0. lra. Qed.
Lemma within_neg (x X : flt f) : within x X -> within (fneg x) X.
Proof.
  intros (H1 & H2 & H3). unfold within, fneg. rewrite is_finite_Bopp, B2R_Bopp, Rabs_Ropp. auto.
Qed.
Lemma fsame_within (x y X : flt f) : fsame x y -> within y X -> within x X.
Proof. intros H (H1 & H2 & H3). apply fsame_B in H. destruct H as [E F]. unfold within. rewrite E, F. auto. Qed.

Lemma powi_loop_dom b : forall x X m M : flt f, dom x X -> dom m M -> dom (powi_loop b x m) (powi_loop b X M).
Proof.
  induction b as [b IH|b IH|]; intros x X m M Hx Hm; cbn [powi_loop].
  - apply IH; apply dom_mul; assumption.
  - apply IH; [apply dom_mul; assumption|exact Hm].
  - apply dom_mul; assumption.
Qed.
Lemma one_within : within (f_of_Z f 1) (f_of_Z f 1).
Proof.
  destruct (f_of_Z_small f 1%Z) as [K1 K2]; [destruct f; vm_compute; discriminate|].
  split; [exact K2|]. split; [exact K2|]. rewrite K1, Rabs_R1. lra.
Qed.
Lemma powi_dom k (x X : flt f) : (k < 2 ^ 31)%N -> dom x X -> dom (rt_powi x (as_i32 k)) (rt_powi X (as_i32 k)).
Proof.
  intros Hk Hx. rewrite as_i32_small by exact Hk. destruct k as [|b]; cbn [Z.of_N rt_powi].
  - apply within_dom, one_within.
  - apply powi_loop_dom; [exact Hx|apply within_dom, one_within].
Qed.
End Rest.

(** ** C107 *)

(** The value computed at a point within a bound, for coefficients within bounds, is within the value computed from the bounds. *)
Theorem C107_eval : forall chk f powi (a A : list (flt f)) x X r R', let O := float_num chk f powi in
  bounded a A -> within x X -> dense_eval O a x = Ok r -> dense_eval O A X = Ok R' -> is_finite R' = true -> within r R'.
Proof.
  intros chk f powi a A x X r R' O Ha Hx Hr HR F. apply dom_within; [|exact F]. apply (eval_dom chk f powi x X a A); assumption.
Qed.

(** Evaluation of polynomials without negative coefficients is monotone, in the point and in the coefficients. *)
Theorem C107_monotone : forall chk f powi (a A : list (flt f)) x X r R', let O := float_num chk f powi in
  (forall d, is_finite (vcoef a d) = true /\ is_finite (vcoef A d) = true /\ 0 <= B2R (vcoef a d) <= B2R (vcoef A d)) ->
  is_finite x = true -> is_finite X = true -> 0 <= B2R x <= B2R X ->
  dense_eval O a x = Ok r -> dense_eval O A X = Ok R' -> is_finite R' = true ->
  is_finite r = true /\ 0 <= B2R r <= B2R R'.
Proof.
  intros chk f powi a A x X r R' O H Fx FX Hx Hr HR F.
  assert (W1 : bounded a A) by (intros d; destruct (H d) as (H1 & H2 & H3); repeat split; try assumption; rewrite Rabs_pos_eq; lra).
  assert (W2 : bounded a a) by (intros d; destruct (H d) as (H1 & H2 & H3); repeat split; try assumption; rewrite Rabs_pos_eq; lra).
  assert (X1 : within x X) by (repeat split; try assumption; rewrite Rabs_pos_eq; lra).
  assert (X2 : within x x) by (repeat split; try assumption; rewrite Rabs_pos_eq; lra).
  destruct (C107_eval chk f powi a A x X r R' W1 X1 Hr HR F) as (K1 & _ & K3). split; [exact K1|].
  destruct (C107_eval chk f powi a a x x r r W2 X2 Hr Hr K1) as (_ & _ & K4).
  pose proof (Rabs_pos (B2R r)). split; [lra|]. eapply Rle_trans; [|exact K3]. apply Rle_abs.
Qed.

(** Sums, differences and negations; each coefficient on its own. *)
Theorem C107_arithmetic : forall chk f powi (a A b B' : list (flt f)), let O := float_num chk f powi in
  bounded a A -> bounded b B' ->
  (exists r s R', dense_add O a b = Ok r /\ dense_sub O a b = Ok s /\ dense_add O A B' = Ok R' /\
    forall d, is_finite (vcoef R' d) = true -> within (vcoef r d) (vcoef R' d) /\ within (vcoef s d) (vcoef R' d)) /\
  (exists r, dense_neg O a = Ok r /\ bounded r A).
Proof.
  intros chk f powi a A b B' O Ha Hb. split.
  - destruct (dense_add_same chk f powi a b) as (r & Er & Cr). destruct (dense_sub_same chk f powi a b) as (s & Es & _ & Cs).
    destruct (dense_add_same chk f powi A B') as (R' & ER & CR). exists r, s, R'. split; [exact Er|]. split; [exact Es|]. split; [exact ER|].
    intros d F. pose proof (within_dom _ _ (Ha d)) as Da. pose proof (within_dom _ _ (Hb d)) as Db. split; apply dom_within; try exact F.
    + eapply fsame_dom; [apply Cr|apply CR|]. apply dom_add; [exact Da|exact Db].
    + eapply fsame_dom; [apply Cs|apply CR|]. apply dom_sub; [exact Da|exact Db].
  - destruct (dense_neg_same chk f powi a) as (r & Er & Cr). exists r. split; [exact Er|]. intros d. eapply fsame_within; [apply Cr|]. apply within_neg, Ha.
Qed.

(** Multiples by and quotients by a number: a factor within a bound, a divisor not below a positive one. *)
Theorem C107_scalar : forall chk f powi (a A : list (flt f)) s S' t T', let O := float_num chk f powi in
  bounded a A -> within s S' -> is_finite t = true -> is_finite T' = true -> 0 < B2R T' <= Rabs (B2R t) ->
  (exists r R', dense_scale O a s = Ok r /\ dense_scale O A S' = Ok R' /\
    forall d, is_finite (vcoef R' d) = true -> within (vcoef r d) (vcoef R' d)) /\
  (exists r R', dense_div_scalar O a t = Ok r /\ dense_div_scalar O A T' = Ok R' /\
    forall d, is_finite (vcoef R' d) = true -> within (vcoef r d) (vcoef R' d)).
Proof.
  intros chk f powi a A s S' t T' O Ha Hs Ft FT HT. 
  assert (P : forall (l : list (flt f)) d, (d <? length l)%nat = false -> cf (fzero f) l d = fzero f) by (intros l d H; apply cf_overflow; lia).
  assert (t0 : B2R t <> 0) by (intros E; rewrite E, Rabs_R0 in HT; lra).
  split.
  - destruct (dense_map_same chk f powi (fun x => fmul x s) a) as (r & Er & Cr). destruct (dense_map_same chk f powi (fun x => fmul x S') A) as (R' & ER & CR).
    exists r, R'. split; [exact Er|]. split; [exact ER|]. intros d F. apply dom_within; [|exact F].
    eapply fsame_dom; [eapply fsame_trans; [apply Cr|apply mul_pad; [apply Hs|apply P]]|eapply fsame_trans; [apply CR|apply mul_pad; [apply Hs|apply P]]|].
    apply dom_mul; apply within_dom; [apply Ha|exact Hs].
  - destruct (dense_map_same chk f powi (fun x => fdiv x t) a) as (r & Er & Cr). destruct (dense_map_same chk f powi (fun x => fdiv x T') A) as (R' & ER & CR).
    exists r, R'. split; [exact Er|]. split; [exact ER|]. intros d F. apply dom_within; [|exact F].
    eapply fsame_dom; [eapply fsame_trans; [apply Cr|apply div_pad; [exact Ft|exact t0|apply P]]|eapply fsame_trans; [apply CR|apply div_pad; [exact FT|lra|apply P]]|].
    apply dom_div; [apply Ha|exact HT].
Qed.

(** Derivatives and integrals. *)
Theorem C107_calculus : forall chk f powi (a A : list (flt f)), let O := float_num chk f powi in
  bounded a A -> (len a <= f_cont_limit f)%N -> (len A <= f_cont_limit f)%N ->
  (exists r R', dense_derivative O a = Ok r /\ dense_derivative O A = Ok R' /\
    forall d, is_finite (vcoef R' d) = true -> within (vcoef r d) (vcoef R' d)) /\
  (exists r R', dense_integral O a = Ok r /\ dense_integral O A = Ok R' /\
    forall d, is_finite (vcoef R' d) = true -> within (vcoef r d) (vcoef R' d)).
Proof.
  intros chk f powi a A O Ha La LA. 
  assert (Small : forall d, (d < length a \/ d < length A)%nat -> is_finite (f_of_Z f (Z.of_nat (S d))) = true /\ B2R (f_of_Z f (Z.of_nat (S d))) = IZR (Z.of_nat (S d))).
  { intros d Hd. pose proof (cont_limit_small f) as Hm. destruct (f_of_Z_small f (Z.of_nat (S d))) as [K1 K2]; [unfold len in *; lia|]. split; assumption. }
  assert (Z : dom (fzero f) (fzero f)) by apply within_dom, zero_within.
  split.
  - destruct (dense_derivative_same chk f powi a La) as (r & Er & Cr). destruct (dense_derivative_same chk f powi A LA) as (R' & ER & CR).
    exists r, R'. split; [exact Er|]. split; [exact ER|]. intros d F. apply dom_within; [|exact F].
    destruct (Nat.ltb_spec d (Nat.max (length a) (length A))) as [Hd|Hd].
    + destruct (Small d) as [F1 E1]; [lia|].
      eapply fsame_dom; [eapply fsame_trans; [apply Cr|apply mul_pad; [exact F1|intros H; apply cf_overflow; lia]]|eapply fsame_trans; [apply CR|apply mul_pad; [exact F1|intros H; apply cf_overflow; lia]]|].
      apply dom_mul; apply within_dom; [apply (Ha (S d))|]. split; [exact F1|]. split; [exact F1|]. rewrite E1, Rabs_pos_eq; [lra|apply IZR_le; lia].
    + eapply fsame_dom; [apply Cr|apply CR|]. replace (S d <? length a)%nat with false by lia. replace (S d <? length A)%nat with false by lia. exact Z.
  - destruct (dense_integral_same chk f powi a La) as (r & Er & C0 & Cr). destruct (dense_integral_same chk f powi A LA) as (R' & ER & D0 & CR).
    exists r, R'. split; [exact Er|]. split; [exact ER|]. intros d F. apply dom_within; [|exact F].
    destruct d as [|d]; [eapply fsame_dom; [exact C0|exact D0|exact Z]|].
    destruct (Nat.ltb_spec d (Nat.max (length a) (length A))) as [Hd|Hd].
    + destruct (Small d) as [F1 E1]; [lia|]. assert (N0 : 0 < B2R (f_of_Z f (Z.of_nat (S d)))) by (rewrite E1; apply IZR_lt; lia).
      eapply fsame_dom; [eapply fsame_trans; [apply Cr|apply div_pad; [exact F1|lra|intros H; apply cf_overflow; lia]]|eapply fsame_trans; [apply CR|apply div_pad; [exact F1|lra|intros H; apply cf_overflow; lia]]|].
      apply dom_div; [apply (Ha d)|]. rewrite Rabs_pos_eq; lra.
    + eapply fsame_dom; [apply Cr|apply CR|]. replace (d <? length a)%nat with false by lia. replace (d <? length A)%nat with false by lia. exact Z.
Qed.

(** Products, each coefficient on its own; and powers. *)
Theorem C107_multiply : forall chk f powi (a A b B' r R' : list (flt f)), let O := float_num chk f powi in
  vec_ok O a -> vec_ok O A -> vec_ok O b -> vec_ok O B' -> bounded a A -> bounded b B' ->
  (dense_mul O a b = Ok r /\ dense_mul O A B' = Ok R' \/ dense_mul_ref O a b = Ok r /\ dense_mul_ref O A B' = Ok R') ->
  forall d, is_finite (vcoef R' d) = true -> within (vcoef r d) (vcoef R' d).
Proof.
  intros chk f powi a A b B' r R' O Va VA Vb VB Ha Hb [[Hr HR]|[Hr HR]] d F; apply dom_within; try exact F.
  - apply (mul_dom chk f powi a A b B'); assumption.
  - apply (mul_ref_dom chk f powi a A b B'); assumption.
Qed.
Theorem C107_power : forall chk f powi fuel (a A r R' : list (flt f)) e, let O := float_num chk f powi in
  vec_ok O a -> vec_ok O A -> bounded a A -> dense_pow O fuel a e = Ok r -> dense_pow O fuel A e = Ok R' ->
  (forall d, is_finite (vcoef R' d) = true) -> bounded r R'.
Proof. intros chk f powi fuel a A r R' e O Va VA Ha Hr HR F. apply (pow_bounded chk f powi fuel a A e); assumption. Qed.

(** Sparse polynomials: sums, differences, negations, multiples and quotients. *)
Theorem C107_sparse : forall chk f powi (a A b B' : bmap (flt f)) s S' t T', let O := float_num chk f powi in
  swf a -> swf A -> swf b -> swf B' -> sbounded a A -> sbounded b B' ->
  within s S' -> is_finite t = true -> is_finite T' = true -> 0 < B2R T' <= Rabs (B2R t) ->
  (exists r q R', sparse_add O a b = Ok r /\ sparse_sub O a b = Ok q /\ sparse_add O A B' = Ok R' /\
    forall k, is_finite (mcoef R' k) = true -> within (mcoef r k) (mcoef R' k) /\ within (mcoef q k) (mcoef R' k)) /\
  (exists r, sparse_neg O a = Ok r /\ sbounded r A) /\
  (exists r R', sparse_scale O a s = Ok r /\ sparse_scale O A S' = Ok R' /\
    forall k, is_finite (mcoef R' k) = true -> within (mcoef r k) (mcoef R' k)) /\
  (exists r R', sparse_div_scalar O a t = Ok r /\ sparse_div_scalar O A T' = Ok R' /\
    forall k, is_finite (mcoef R' k) = true -> within (mcoef r k) (mcoef R' k)).
Proof.
  intros chk f powi a A b B' s S' t T' O Wa WA Wb WB Ha Hb Hs Ft FT HT.
  assert (t0 : B2R t <> 0) by (intros E; rewrite E, Rabs_R0 in HT; lra).
  assert (GM : forall (m : bmap (flt f)) k n, is_finite n = true -> fsame (match m_get k m with Some v => fmul v n | None => fzero f end) (fmul (mcoef m k) n)).
  { intros m k n Fn. unfold mcoef. destruct (m_get k m) as [v|]; [apply fsame_refl|]. apply (mul_pad (fzero f) n false); [exact Fn|reflexivity]. }
  assert (GD : forall (m : bmap (flt f)) k n, is_finite n = true -> B2R n <> 0 -> fsame (match m_get k m with Some v => fdiv v n | None => fzero f end) (fdiv (mcoef m k) n)).
  { intros m k n Fn Hn. unfold mcoef. destruct (m_get k m) as [v|]; [apply fsame_refl|]. apply (div_pad (fzero f) n false); [exact Fn|exact Hn|reflexivity]. }
  split; [|split; [|split]].
  - destruct (sparse_add_same chk f powi a b Wa Wb) as (r & Er & Cr). destruct (sparse_sub_same chk f powi a b Wb) as (q & Eq & Cq).
    destruct (sparse_add_same chk f powi A B' WA WB) as (R' & ER & CR). exists r, q, R'. split; [exact Er|]. split; [exact Eq|]. split; [exact ER|].
    intros k F. pose proof (within_dom _ _ (Ha k)) as Da. pose proof (within_dom _ _ (Hb k)) as Db. split; apply dom_within; try exact F.
    + eapply fsame_dom; [apply Cr|apply CR|]. apply dom_add; [exact Da|exact Db].
    + eapply fsame_dom; [apply Cq|apply CR|]. apply dom_sub; [exact Da|exact Db].
  - destruct (sparse_neg_same chk f powi a Wa) as (r & Er & Cr). exists r. split; [exact Er|]. intros k. eapply fsame_within; [apply Cr|]. apply within_neg, Ha.
  - destruct (sparse_scale_same chk f powi a s Wa) as (r & Er & _ & Cr). destruct (sparse_scale_same chk f powi A S' WA) as (R' & ER & _ & CR).
    exists r, R'. split; [exact Er|]. split; [exact ER|]. intros k F. apply dom_within; [|exact F].
    eapply (fsame_dom _ _ _ _ _ _ (dom_mul _ _ _ _ (within_dom _ _ (Ha k)) (within_dom _ _ Hs))).
    Unshelve.
    + change (mcoef r k) with (sget f r k). rewrite Cr. apply GM, Hs.
    + change (mcoef R' k) with (sget f R' k). rewrite CR. apply GM, Hs.
  - destruct (sparse_div_scalar_fsame chk f powi a t Wa) as (r & Er & _ & Cr). destruct (sparse_div_scalar_fsame chk f powi A T' WA) as (R' & ER & _ & CR).
    exists r, R'. split; [exact Er|]. split; [exact ER|]. intros k F. apply dom_within; [|exact F].
    eapply (fsame_dom _ _ _ _ _ _ (dom_div _ _ _ _ (Ha k) HT)).
    Unshelve.
    + change (mcoef r k) with (sget f r k). rewrite Cr. apply GD; [exact Ft|exact t0].
    + change (mcoef R' k) with (sget f R' k). rewrite CR. apply GD; [exact FT|lra].
Qed.

(** Evaluation of sparse polynomials, with the powers of Rust's runtime library and exponents that fit in an i32. *)
Theorem C107_sparse_eval : forall chk f (a A : bmap (flt f)) x X r R', let O := float_num chk f (f_upow rt_powi) in
  stored_bounded a A -> (forall k, In k (map fst a) -> (k < 2 ^ 31)%N) -> within x X ->
  sparse_eval O a x = Ok r -> sparse_eval O A X = Ok R' -> is_finite R' = true -> within r R'.
Proof.
  intros chk f a A x X r R' O H Hk Hx Hr HR F. pose proof (eval_fold chk f rt_powi a x) as E1. pose proof (eval_fold chk f rt_powi A X) as E2.
  fold O in E1, E2. rewrite Hr in E1. rewrite HR in E2. injection E1 as ->. injection E2 as ->.
  apply dom_within; [|exact F]. clear F Hr HR. assert (Z : dom (fzero f) (fzero f)) by apply within_dom, zero_within. revert Z.
  generalize (fzero f) at 1 3. generalize (fzero f). induction H as [|u v a A [Hkv Hw] H IH]; intros T t D; [exact D|]. cbn [fold_left].
  apply IH; [intros k K; apply Hk; right; exact K|]. unfold sstep. apply dom_add; [exact D|]. apply dom_mul; [apply within_dom, Hw|].
  rewrite <- Hkv. apply powi_dom; [apply Hk; left; reflexivity|apply within_dom, Hx].
Qed.

(** -2x^2 + 3x - 7 at -5 is bounded by 2x^2 + 4x + 9 at 6, and so are its operations; -16777215x + 3 at 3 in f32, which
    is rounded, by 16777216x + 3 at 3. *)
Lemma z_within f i j : (Z.abs i <= j)%Z -> (j <= 2 ^ 24)%Z -> within (f_of_Z f i) (f_of_Z f j).
Proof.
  intros H1 H2. assert (K : (2 ^ 24 <= 2 ^ fprec f)%Z) by (destruct f; vm_compute; discriminate).
  destruct (f_of_Z_small f i ltac:(lia)) as [E1 F1]. destruct (f_of_Z_small f j ltac:(lia)) as [E2 F2].
  split; [exact F1|]. split; [exact F2|]. rewrite E1, E2, <- abs_IZR. apply IZR_le, H1.
Qed.
Lemma bounded_cons f (x X : flt f) a A : length a = length A -> within x X -> bounded a A -> bounded (x :: a) (X :: A).
Proof.
  intros L H HB d. specialize (HB d). change (within (cf (fzero f) (x :: a) d) (cf (fzero f) (X :: A) d)). rewrite !cf_cons, L.
  destruct (d =? length A)%nat; assumption.
Qed.
Lemma bounded_nil f : @bounded f [] [].
Proof. intros [|d]; apply zero_within. Qed.

Example C107_case : forall chk powi, let z := f_of_Z F64 in let w := f_of_Z F32 in
  let O := float_num chk F64 powi in let P := float_num chk F32 (fun x _ => x) in
  bounded [z (-2); z 3; z (-7)]%Z [z 2; z 4; z 9]%Z /\ within (z (-5)%Z) (z 6%Z) /\
  rmap B2SF (dense_eval O [z (-2); z 3; z (-7)]%Z (z (-5))%Z) = Ok (B2SF (z (-72))%Z) /\
  rmap B2SF (dense_eval O [z 2; z 4; z 9]%Z (z 6)%Z) = Ok (B2SF (z 105)%Z) /\
  (forall k, (k < 2 ^ 31)%N -> within (rt_powi (z (-5)%Z) (as_i32 k)) (rt_powi (z 6%Z) (as_i32 k)) \/ is_finite (rt_powi (z 6%Z) (as_i32 k)) = false) /\
  bounded [w (-16777215); w 3]%Z [w 16777216; w 3]%Z /\
  rmap B2SF (dense_eval P [w (-16777215); w 3]%Z (w 3)%Z) = Ok (B2SF (w (-50331640))%Z) /\
  rmap B2SF (dense_eval P [w 16777216; w 3]%Z (w 3)%Z) = Ok (B2SF (w 50331652)%Z).
Proof.
  intros chk powi z w O P. split; [|split; [|split; [|split; [|split; [|split; [|split]]]]]].
  - repeat (apply bounded_cons; [reflexivity|apply z_within; vm_compute; discriminate|]). apply bounded_nil.
  - apply z_within; vm_compute; discriminate.
  - destruct chk; vm_compute; reflexivity.
  - destruct chk; vm_compute; reflexivity.
  - intros k Hk. destruct (is_finite (rt_powi (z 6%Z) (as_i32 k))) eqn:F; [left|right; reflexivity].
    apply dom_within; [|exact F]. apply powi_dom; [exact Hk|]. apply within_dom, z_within; vm_compute; discriminate.
  - repeat (apply bounded_cons; [reflexivity|apply z_within; vm_compute; discriminate|]). apply bounded_nil.
  - destruct chk; vm_compute; reflexivity.
  - destruct chk; vm_compute; reflexivity.
Qed.

Print Assumptions C107_eval.
Print Assumptions C107_monotone.
Print Assumptions C107_arithmetic.
Print Assumptions C107_scalar.
Print Assumptions C107_calculus.
Print Assumptions C107_multiply.
Print Assumptions C107_power.
Print Assumptions C107_sparse.
Print Assumptions C107_sparse_eval.
