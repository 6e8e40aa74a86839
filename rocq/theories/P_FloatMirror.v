(** Property C103: mirror images of a float polynomial have mirrored results. *)

From Coq Require Import List NArith ZArith Reals Lia Lra Bool Arith.
From Coq Require Import ZifyBool ZifyNat ZifyN.
From Flocq Require Import Core BinarySingleNaN.
From Verif Require Import Base Num Spec SpecFacts Laws Terms Dense DenseFacts Coef.
From Verif Require Import DenseCalc Mono Bino Trino Roots P_Roots3 FloatQuad RealNum Floats FloatFacts FloatErr FloatEval FloatMul FloatCoef P_FloatErr P_FloatRep.
Import ListNotations.

(** ** Specification *)

(** [x] with its sign changed or not. *)
Definition flip {f} (s : bool) (x : flt f) : flt f := if s then fneg x else x.

(** [y] is [x] with its sign changed or not; the sign of a zero does not matter. *)
Definition tw {f} (s : bool) (x y : flt f) : Prop := fsame y (flip s x).

(** The coefficients of [b] are those of [a], with the sign changed throughout if [o], and in the
    odd degrees if [e]: [b] is a(x), a(-x), -a(x) or -a(-x). *)
Definition mirrored {f} (e o : bool) (a b : list (flt f)) : Prop :=
  length b = length a /\ forall d, tw (xorb o (e && Nat.odd d)) (vcoef a d) (vcoef b d).

(** Both calls return, with related values, or both panic alike, or neither is done yet. *)
Definition rrel {A B} (P : A -> B -> Prop) (x : res A) (y : res B) : Prop :=
  match x, y with
  | Ok a, Ok b => P a b
  | Panic k, Panic k' => k = k'
  | Fuel, Fuel => True
  | _, _ => False
  end.

(** Two lists of two roots: those of the second are those of the first, negated if [e], in the
    other order if [swap]. *)
Definition mirrored_roots {f} (e swap : bool) (rs rs' : roots (flt f)) : Prop :=
  let first {A} (p : A * A) := if swap then snd p else fst p in
  let second {A} (p : A * A) := if swap then fst p else snd p in
  match rs, rs' with
  | TwoRealRoots x y, TwoRealRoots x' y' => tw e (first (x, y)) x' /\ tw e (second (x, y)) y'
  | TwoComplexRoots x y, TwoComplexRoots x' y' =>
    (tw e (fst (first (x, y))) (fst x') /\ tw e (snd (first (x, y))) (snd x')) /\
    (tw e (fst (second (x, y))) (fst y') /\ tw e (snd (second (x, y))) (snd y'))
  | _, _ => False
  end.

(** ** Signs pass through the float operations *)

Section Sign.
Context {f : fty}.
Implicit Types x y : flt f.

Lemma rnd_opp r : Generic_fmt.round radix2 (SpecFloat.fexp (fprec f) (femax f)) (round_mode mode_NE) (- r) =
  (- Generic_fmt.round radix2 (SpecFloat.fexp (fprec f) (femax f)) (round_mode mode_NE) r)%R.
Proof. apply round_NE_opp. Qed.

Lemma B2R_neg x : B2R (fneg x) = (- B2R x)%R.
Proof. apply B2R_Bopp. Qed.
Lemma fin_neg x : is_finite (fneg x) = is_finite x.
Proof. apply is_finite_Bopp. Qed.
Lemma B2SF_Bopp x : B2SF (fneg x) = SpecFloat.SFopp (B2SF x).
Proof. destruct x; reflexivity. Qed.
Lemma neg_neg x : fneg (fneg x) = x.
Proof. apply Bopp_involutive. Qed.

Lemma fneg_add x y : fsame (fadd (fneg x) (fneg y)) (fneg (fadd x y)).
Proof.
  destruct (is_finite x) eqn:Hx.
  2:{ destruct x as [s|s| |s m e H]; try discriminate Hx; destruct y as [t|t| |t m' e' H']; try apply fsame_refl; destruct s, t; apply fsame_refl. }
  destruct (is_finite y) eqn:Hy.
  2:{ destruct y as [t|t| |t m' e' H']; try discriminate Hy; destruct x as [s|s| |s m e H]; try apply fsame_refl; discriminate Hx. }
  pose proof (Bplus_correct _ _ _ _ mode_NE x y Hx Hy) as K1.
  pose proof (Bplus_correct _ _ _ _ mode_NE (fneg x) (fneg y)) as K2. rewrite !fin_neg in K2. specialize (K2 Hx Hy).
  rewrite !B2R_neg in K2. replace (- B2R x + - B2R y)%R with (- (B2R x + B2R y))%R in K2 by ring. rewrite rnd_opp, Rabs_Ropp in K2.
  unfold fadd. destruct (Rlt_bool _ _).
  - destruct K1 as (A1 & A2 & A3), K2 as (B1 & B2 & B3).
    destruct (Rcompare_spec (B2R x + B2R y) 0) as [C|C|C].
    + left. apply B2R_Bsign_inj; [exact B2|rewrite fin_neg; exact A2|rewrite B2R_neg, A1; exact B1|].
      rewrite B3. unfold fneg at 3. rewrite Bsign_Bopp by (destruct (Bplus mode_NE x y); cbn in *; congruence). rewrite A3.
      rewrite Rcompare_Gt by lra. reflexivity.
    + right. rewrite C in A1, B1. rewrite Ropp_0 in * || idtac. rewrite round_0 in A1 by apply valid_rnd_N. rewrite round_0 in B1 by apply valid_rnd_N.
      split; apply feqb_zero.
      * destruct (Bplus mode_NE (fneg x) (fneg y)) as [s|s| |s m e H]; try discriminate B2; [eauto|]. exfalso. cbn in B1.
        apply (F2R_neq_0 _ (Float radix2 (SpecFloat.cond_Zopp s (Zpos m)) e)); [destruct s; discriminate|]. rewrite B1. ring.
      * destruct (Bplus mode_NE x y) as [s|s| |s m e H]; try discriminate A2; [cbn; eauto|]. exfalso. cbn in A1.
        apply (F2R_neq_0 _ (Float radix2 (SpecFloat.cond_Zopp s (Zpos m)) e)); [destruct s; discriminate|]. exact A1.
    + left. apply B2R_Bsign_inj; [exact B2|rewrite fin_neg; exact A2|rewrite B2R_neg, A1; exact B1|].
      rewrite B3. unfold fneg at 3. rewrite Bsign_Bopp by (destruct (Bplus mode_NE x y); cbn in *; congruence). rewrite A3.
      rewrite Rcompare_Lt by lra. reflexivity.
  - left. destruct K1 as (A1 & A2), K2 as (B1 & B2). apply B2SF_inj. rewrite B1. rewrite B2SF_Bopp, A1.
    unfold fneg. rewrite Bsign_Bopp by (destruct x; cbn in *; congruence). reflexivity.
Qed.

Lemma fneg_mul_l x y : fmul (fneg x) y = fneg (fmul x y).
Proof.
  assert (N : forall z : flt f, is_finite z = true -> is_nan z = false) by (intros [| | |]; cbn; congruence).
  destruct (is_finite x) eqn:Hx.
  2:{ destruct x as [s|s| |s m e H]; try discriminate Hx; destruct y as [t|t| |t m' e' H']; try reflexivity; destruct s, t; reflexivity. }
  destruct (is_finite y) eqn:Hy.
  2:{ destruct y as [t|t| |t m' e' H']; try discriminate Hy; destruct x as [s|s| |s m e H]; try reflexivity; destruct s, t; reflexivity. }
  pose proof (Bmult_correct _ _ _ _ mode_NE x y) as K1. pose proof (Bmult_correct _ _ _ _ mode_NE (fneg x) y) as K2.
  rewrite fin_neg, B2R_neg in K2. replace (- B2R x * B2R y)%R with (- (B2R x * B2R y))%R in K2 by ring. rewrite rnd_opp, Rabs_Ropp in K2.
  assert (S : Bsign (fneg x) = negb (Bsign x)) by (apply Bsign_Bopp, N, Hx). rewrite S in K2. rewrite Hx, Hy in K1, K2. unfold fmul.
  destruct (Rlt_bool _ _).
  - destruct K1 as (A1 & A2 & A3), K2 as (B1 & B2 & B3).
    apply B2R_Bsign_inj; [exact B2|rewrite fin_neg; exact A2|rewrite B2R_neg, A1; exact B1|].
    etransitivity; [apply B3, N, B2|]. unfold fneg. rewrite Bsign_Bopp by (apply N, A2). rewrite (A3 (N _ A2)). symmetry; apply negb_xorb_l.
  - apply B2SF_inj. etransitivity; [exact K2|]. rewrite B2SF_Bopp, K1. cbn. destruct (Bsign x), (Bsign y); reflexivity.
Qed.
Lemma fneg_mul_r x y : fmul x (fneg y) = fneg (fmul x y).
Proof. rewrite fmul_comm, fneg_mul_l, fmul_comm. reflexivity. Qed.
Lemma fneg_div_l x y : fdiv (fneg x) y = fneg (fdiv x y).
Proof.
  assert (N : forall z : flt f, is_finite z = true -> is_nan z = false) by (intros [| | |]; cbn; congruence).
  destruct (is_finite x) eqn:Hx.
  2:{ destruct x as [s|s| |s m e H]; try discriminate Hx; destruct y as [t|t| |t m' e' H']; try reflexivity; destruct s, t; reflexivity. }
  destruct (Req_dec (B2R y) 0) as [Hy|Hy].
  { destruct y as [t|t| |t m' e' H']; [| | |exfalso; revert Hy; apply F2R_neq_0; destruct t; discriminate];
      destruct x as [s|s| |s m e H]; try discriminate Hx; try reflexivity; destruct s, t; reflexivity. }
  pose proof (Bdiv_correct _ _ _ _ mode_NE x y Hy) as K1. pose proof (Bdiv_correct _ _ _ _ mode_NE (fneg x) y Hy) as K2.
  rewrite fin_neg, B2R_neg in K2. replace (- B2R x / B2R y)%R with (- (B2R x / B2R y))%R in K2 by (field; exact Hy). rewrite rnd_opp, Rabs_Ropp in K2.
  assert (S : Bsign (fneg x) = negb (Bsign x)) by (apply Bsign_Bopp, N, Hx). rewrite S in K2. rewrite Hx in K1, K2. unfold fdiv.
  destruct (Rlt_bool _ _).
  - destruct K1 as (A1 & A2 & A3), K2 as (B1 & B2 & B3).
    apply B2R_Bsign_inj; [exact B2|rewrite fin_neg; exact A2|rewrite B2R_neg, A1; exact B1|].
    etransitivity; [apply B3, N, B2|]. unfold fneg. rewrite Bsign_Bopp by (apply N, A2). rewrite (A3 (N _ A2)). symmetry; apply negb_xorb_l.
  - apply B2SF_inj. etransitivity; [exact K2|]. rewrite B2SF_Bopp, K1. cbn. destruct (Bsign x), (Bsign y); reflexivity.
Qed.
Lemma fneg_div_r x y : fdiv x (fneg y) = fneg (fdiv x y).
Proof.
  assert (N : forall z : flt f, is_finite z = true -> is_nan z = false) by (intros [| | |]; cbn; congruence).
  destruct (is_finite x) eqn:Hx.
  2:{ destruct x as [s|s| |s m e H]; try discriminate Hx; destruct y as [t|t| |t m' e' H']; try reflexivity; destruct s, t; reflexivity. }
  destruct (is_finite y) eqn:Fy.
  2:{ destruct y as [t|t| |t m' e' H']; try discriminate Fy; destruct x as [s|s| |s m e H]; try discriminate Hx; try reflexivity; destruct s, t; reflexivity. }
  destruct (Req_dec (B2R y) 0) as [Hy|Hy].
  { destruct y as [t|t| |t m' e' H']; [| | |exfalso; revert Hy; apply F2R_neq_0; destruct t; discriminate];
      destruct x as [s|s| |s m e H]; try discriminate Hx; try reflexivity; destruct s, t; reflexivity. }
  assert (Hy' : B2R (fneg y) <> 0%R) by (rewrite B2R_neg; lra).
  pose proof (Bdiv_correct _ _ _ _ mode_NE x y Hy) as K1. pose proof (Bdiv_correct _ _ _ _ mode_NE x (fneg y) Hy') as K2.
  rewrite B2R_neg in K2. replace (B2R x / - B2R y)%R with (- (B2R x / B2R y))%R in K2 by (field; exact Hy). rewrite rnd_opp, Rabs_Ropp in K2.
  assert (S : Bsign (fneg y) = negb (Bsign y)) by (apply Bsign_Bopp, N, Fy). rewrite S in K2. rewrite Hx in K1, K2. unfold fdiv.
  destruct (Rlt_bool _ _).
  - destruct K1 as (A1 & A2 & A3), K2 as (B1 & B2 & B3).
    apply B2R_Bsign_inj; [exact B2|rewrite fin_neg; exact A2|rewrite B2R_neg, A1; exact B1|].
    etransitivity; [apply B3, N, B2|]. unfold fneg. rewrite Bsign_Bopp by (apply N, A2). rewrite (A3 (N _ A2)). symmetry; apply negb_xorb_r.
  - apply B2SF_inj. etransitivity; [exact K2|]. rewrite B2SF_Bopp, K1. cbn. destruct (Bsign x), (Bsign y); reflexivity.
Qed.

Lemma tw_id x : tw false x x.
Proof. apply fsame_refl. Qed.
Lemma tw_neg x : tw true x (fneg x).
Proof. apply fsame_refl. Qed.
Lemma tw_flip s x : tw s x (flip s x).
Proof. apply fsame_refl. Qed.
Lemma tw_zero s : tw s (fzero f) (fzero f).
Proof. destruct s; apply fsame_zeros. Qed.
Lemma flip_cong s x y : fsame x y -> fsame (flip s x) (flip s y).
Proof. destruct s; [apply fneg_cong|auto]. Qed.
Lemma tw_is_zero s x y : tw s x y -> feqb y (fzero f) = feqb x (fzero f).
Proof.
  assert (Z : feqb (flip s x) (fzero f) = feqb x (fzero f)).
  { destruct s; [|reflexivity]. destruct x as [t|t| |t m e Hm]; try destruct t; reflexivity. }
  intros [->|[A B]]; [exact Z|]. rewrite A, <- Z. symmetry. exact B.
Qed.
Lemma tw_exact s x y : tw s x y -> feqb x (fzero f) = false -> y = flip s x.
Proof. intros H Z. pose proof (tw_is_zero _ _ _ H) as K. destruct H as [->|[H _]]; [reflexivity|congruence]. Qed.

Lemma fmul_same x x' y y' : fsame x x' -> fsame y y' -> fsame (fmul x y) (fmul x' y').
Proof.
  assert (K : forall x x' y : flt f, fsame x x' -> fsame (fmul x y) (fmul x' y)).
  { clear. intros x x' y [->|H]; [apply fsame_refl|]. destruct (fsame_zero_inv _ _ H) as (s & t & -> & ->).
    destruct y as [r|r| |r m e Hm]; try destruct r; destruct s, t; cbn; try apply fsame_zeros; apply fsame_refl. }
  intros H1 H2. eapply fsame_trans; [apply K, H1|]. rewrite (fmul_comm x'), (fmul_comm x' y'). apply K, H2.
Qed.
Lemma fdiv_same x x' y : fsame x x' -> fsame (fdiv x y) (fdiv x' y).
Proof.
  intros [->|H]; [apply fsame_refl|]. destruct (fsame_zero_inv _ _ H) as (s & t & -> & ->).
  destruct y as [r|r| |r m e Hm]; try destruct r; destruct s, t; cbn; try apply fsame_zeros; apply fsame_refl.
Qed.

Lemma tw_add s x x' y y' : tw s x x' -> tw s y y' -> tw s (fadd x y) (fadd x' y').
Proof.
  intros H1 H2. eapply fsame_trans; [apply fadd_cong; [exact H1|exact H2]|]. destruct s; cbn [flip]; [apply fneg_add|apply fsame_refl].
Qed.
Lemma fsub_add x y : fsame (fsub x y) (fadd x (fneg y)).
Proof. destruct x as [s|s| |s m e H], y as [t|t| |t m' e' H']; try apply fsame_refl; destruct s, t; cbn; try apply fsame_zeros; apply fsame_refl. Qed.
Lemma tw_opp s x y : tw s x y -> tw s (fneg x) (fneg y).
Proof. intros H. eapply fsame_trans; [apply fneg_cong, H|]. destruct s; apply fsame_refl. Qed.
Lemma tw_sub s x x' y y' : tw s x x' -> tw s y y' -> tw s (fsub x y) (fsub x' y').
Proof.
  intros H1 H2. eapply fsame_trans; [apply fsub_add|]. eapply fsame_trans; [apply (tw_add s _ _ _ _ H1 (tw_opp _ _ _ H2))|].
  apply flip_cong, fsame_sym, fsub_add.
Qed.
Lemma tw_mul s t x x' y y' : tw s x x' -> tw t y y' -> tw (xorb s t) (fmul x y) (fmul x' y').
Proof.
  intros H1 H2. eapply fsame_trans; [apply fmul_same; [exact H1|exact H2]|]. left.
  destruct s, t; cbn [flip xorb]; rewrite ?fneg_mul_l, ?fneg_mul_r, ?neg_neg; reflexivity.
Qed.
(** The divisor exactly mirrored. *)
Lemma tw_div s t x x' y : tw s x x' -> tw (xorb s t) (fdiv x y) (fdiv x' (flip t y)).
Proof.
  intros H1. eapply fsame_trans; [apply fdiv_same, H1|]. left.
  destruct s, t; cbn [flip xorb]; rewrite ?fneg_div_l, ?fneg_div_r, ?fneg_div_l, ?neg_neg; reflexivity.
Qed.
End Sign.

(** ** Lists *)

Lemma rrel_bind {A B C D} (P : A -> B -> Prop) (Q : C -> D -> Prop) x y g h :
  rrel P x y -> (forall a b, P a b -> rrel Q (g a) (h b)) -> rrel Q (bind x g) (bind y h).
Proof. destruct x, y; cbn; try tauto. intros H K. apply K, H. Qed.
Lemma rrel_same {A C D} (Q : C -> D -> Prop) (x : res A) (g : A -> res C) (h : A -> res D) :
  (forall a, x = Ok a -> rrel Q (g a) (h a)) -> rrel Q (bind x g) (bind x h).
Proof. intros H. destruct x; cbn; [apply H; reflexivity|reflexivity|exact I]. Qed.
Lemma rrel_impl {A B} (P Q : A -> B -> Prop) x y : (forall a b, P a b -> Q a b) -> rrel P x y -> rrel Q x y.
Proof. intros H. destruct x, y; cbn; auto. Qed.


Section Lists.
Context {f : fty}.
Implicit Types a b : list (flt f).

Definition sg (e o : bool) (d : nat) : bool := xorb o (e && Nat.odd d).

(** [n]: the degree of the last entry. *)
Fixpoint rel (e o : bool) (n : nat) a b {struct a} : Prop :=
  match a, b with
  | [], [] => True
  | x :: a', y :: b' => tw (sg e o (n + length a')) x y /\ rel e o n a' b'
  | _, _ => False
  end.

Lemma rel_length e o n a b : rel e o n a b -> length b = length a.
Proof. revert b. induction a as [|x a IH]; intros [|y b]; cbn; try tauto. intros [_ H]. f_equal. apply IH, H. Qed.

Lemma rel_cf e o a b : rel e o 0 a b <-> length b = length a /\ forall d, tw (sg e o d) (cf (fzero f) a d) (cf (fzero f) b d).
Proof.
  split.
  - intros H. split; [apply (rel_length _ _ _ _ _ H)|]. revert b H. induction a as [|x a IH]; intros [|y b] H; try (destruct H; fail).
    + intros d. rewrite cf_nil. apply tw_zero.
    + destruct H as [Hx H]. intros d. pose proof (rel_length _ _ _ _ _ H) as E. rewrite !cf_cons, E.
      destruct (Nat.eqb_spec d (length a)) as [->|K]; [exact Hx|apply IH, H].
  - intros [E H]. revert b E H. induction a as [|x a IH]; intros [|y b] E H; try discriminate E; [exact I|]. injection E as E. split.
    + specialize (H (length a)). rewrite !cf_cons, E, Nat.eqb_refl in H. exact H.
    + apply IH; [exact E|]. intros d. specialize (H d). rewrite !cf_cons, E in H. destruct (Nat.eqb_spec d (length a)) as [K|K]; [|exact H].
      rewrite !cf_overflow by (rewrite ?E, K; apply Nat.le_refl). apply tw_zero.
Qed.
Lemma rel_mirrored e o a b : rel e o 0 a b <-> mirrored e o a b.
Proof. exact (rel_cf e o a b). Qed.

Lemma rel_app e o n a a2 b b2 : length a2 = length b2 -> (rel e o n (a ++ a2) (b ++ b2) <-> rel e o (n + length a2) a b /\ rel e o n a2 b2).
Proof.
  intros E. revert b. induction a as [|x a IH]; intros [|y b]; cbn [app rel].
  - tauto.
  - split; [|tauto]. intros H. apply rel_length in H. cbn [length] in H. rewrite app_length in H. exfalso. unfold flt in *. lia.
  - split; [|tauto]. intros H. pose proof (rel_length e o n (x :: a ++ a2) b2 H) as K. cbn [length] in K. rewrite app_length in K. exfalso. unfold flt in *. lia.
  - rewrite IH, app_length. replace (n + (length a + length a2)) with (n + length a2 + length a) by lia. tauto.
Qed.

Lemma rel_split e o n a b k : rel e o n a b -> k <= length a ->
  rel e o (n + (length a - k)) (firstn k a) (firstn k b) /\ rel e o n (skipn k a) (skipn k b).
Proof.
  intros H Hk. pose proof (rel_length _ _ _ _ _ H) as E. rewrite <- (firstn_skipn k a), <- (firstn_skipn k b) in H.
  apply rel_app in H; [|rewrite !skipn_length, E; reflexivity]. rewrite skipn_length in H. exact H.
Qed.

Lemma rel_zeros e o n k : rel e o n (repeat (fzero f) k) (repeat (fzero f) k).
Proof. induction k as [|k IH]; cbn; [exact I|]. split; [apply tw_zero|exact IH]. Qed.

(** The same list counted from another degree. *)
Lemma rel_raise e o n k a b : rel e o (n + k) a b <-> rel e (xorb o (e && Nat.odd k)) n a b.
Proof.
  revert b. induction a as [|x a IH]; intros [|y b]; cbn [rel]; try tauto. rewrite IH.
  replace (sg e o (n + k + length a)) with (sg e (xorb o (e && Nat.odd k)) (n + length a)); [tauto|].
  unfold sg. rewrite !Nat.odd_add. destruct e, o, (Nat.odd n), (Nat.odd k), (Nat.odd (length a)); reflexivity.
Qed.

Lemma sg_mul e o1 o2 i j : sg e (xorb o1 o2) (i + j) = xorb (sg e o1 i) (sg e o2 j).
Proof. unfold sg. rewrite Nat.odd_add. destruct e, o1, o2, (Nat.odd i), (Nat.odd j); reflexivity. Qed.

Lemma zipM_rel e o o1 k (g g' : flt f -> flt f -> res (flt f)) m : forall m' a a' n n1, rel e o n a a' -> rel e o1 n1 m m' ->
  n + length a = k + (n1 + length m) ->
  (forall i x x' y y', tw (sg e o (i + k)) x x' -> tw (sg e o1 i) y y' -> rrel (tw (sg e o (i + k))) (g x y) (g' x' y')) ->
  rrel (fun r r' => rel e o n r r' /\ length r = length a) (zipM g a m) (zipM g' a' m').
Proof.
  induction m as [|y m IH]; intros [|y' m'] [|x a] [|x' a'] n n1 Ha Hm E Hg; try (destruct Ha; fail); try (destruct Hm; fail);
    try (cbn; split; [exact Ha|reflexivity]).
  destruct Ha as [Hx Ha], Hm as [Hy Hm]. cbn [length] in E. unfold flt in E. cbn [zipM].
  apply rrel_bind with (P := tw (sg e o (n + length a))).
  - replace (n + length a) with (n1 + length m + k) in * by (unfold flt in *; lia). apply Hg; [exact Hx|exact Hy].
  - intros z z' Hz. eapply rrel_bind; [apply (IH m' a a' n n1 Ha Hm); [unfold flt; lia|exact Hg]|].
    intros zs zs' [Hzs Hl]. cbn [rrel rel length]. rewrite Hl. auto.
Qed.

Lemma mapM_rel e o o' n (g g' : flt f -> res (flt f)) a : forall a', rel e o n a a' ->
  (forall i x x', tw (sg e o i) x x' -> rrel (tw (sg e o' i)) (g x) (g' x')) ->
  rrel (fun r r' => rel e o' n r r' /\ length r = length a) (mapM g a) (mapM g' a').
Proof.
  induction a as [|x a IH]; intros [|x' a'] Ha Hg; try (destruct Ha; fail); [cbn; auto|]. destruct Ha as [Hx Ha]. cbn [mapM].
  eapply rrel_bind; [apply (Hg _ _ _ Hx)|]. intros z z' Hz. eapply rrel_bind; [apply (IH _ Ha Hg)|].
  intros zs zs' [Hzs Hl]. cbn [rrel rel length]. rewrite Hl. auto.
Qed.

Lemma update_rel e o n a : forall a' i g g', rel e o n a a' ->
  (i < length a -> forall x x', tw (sg e o (n + (length a - 1 - i))) x x' -> rrel (tw (sg e o (n + (length a - 1 - i)))) (g x) (g' x')) ->
  rrel (fun r r' => rel e o n r r' /\ length r = length a) (update_nat a i g) (update_nat a' i g').
Proof.
  induction a as [|x a IH]; intros [|x' a'] i g g' Ha Hg; try (destruct Ha; fail); [cbn; reflexivity|]. destruct Ha as [Hx Ha].
  destruct i as [|i]; cbn [update_nat].
  - cbn [length] in Hg. replace (S (length a) - 1 - 0) with (length a) in Hg by lia. eapply rrel_bind; [apply Hg; [lia|exact Hx]|].
    intros z z' Hz. cbn [rrel rel length]. auto.
  - eapply rrel_bind; [apply (IH a' i g g' Ha)|].
    + intros Hi. cbn [length] in Hg. replace (S (length a) - 1 - S i) with (length a - 1 - i) in Hg by lia. apply Hg. lia.
    + intros zs zs' [Hzs Hl]. cbn [rrel rel length]. rewrite Hl. auto.
Qed.
End Lists.

(** ** Operations *)

Section Ops.
Context (f : fty) (chk : bool) (powi : flt f -> N -> flt f).
Notation O := (float_num chk f powi).
Implicit Types a b : list (flt f).

Lemma strip_rel e o n a b : rel e o n a b -> rel e o n (strip O a) (strip O b).
Proof.
  intros H. assert (E : fnz O b = fnz O a).
  { revert b H. induction a as [|x a IH]; intros [|y b] H; try (destruct H; fail); [reflexivity|]. destruct H as [Hx H].
    cbn [fnz is_zero float_num]. rewrite (tw_is_zero _ _ _ Hx), (IH _ H). reflexivity. }
  unfold strip. rewrite E. apply (rel_split e o n a b _ H), fnz_le.
Qed.

Lemma dense_new_rel e o a b : rel e o 0 a b -> rrel (rel e o 0) (dense_new O a) (dense_new O b).
Proof. intros H. rewrite !dense_new_ok. cbn [rrel]. apply strip_rel, H. Qed.

Lemma slice_from_rel e o n a b k Q (g h : list (flt f) -> res (list (flt f))) : rel e o n a b ->
  (k <= length a -> rel e o n (skipn k a) (skipn k b) -> rrel Q (g (skipn k a)) (h (skipn k b))) ->
  rrel Q (bind (slice_from a k) g) (bind (slice_from b k) h).
Proof.
  intros H K. unfold slice_from. rewrite (rel_length _ _ _ _ _ H). destruct (Nat.leb_spec k (length a)) as [L|L]; cbn [bind rrel]; [|reflexivity].
  apply K; [exact L|]. apply (rel_split _ _ _ _ _ _ H L).
Qed.

(** Products. *)
Lemma mul_rows_rel e o1 o2 lhs lhs' rhs : rel e o1 0 lhs lhs' -> forall rhs' idx t t', rel e o2 0 rhs rhs' -> rel e (xorb o1 o2) 0 t t' ->
  length t + 1 = idx + length rhs + length lhs ->
  rrel (fun r r' => rel e (xorb o1 o2) 0 r r' /\ length r = length t) (mul_rows O idx rhs lhs t) (mul_rows O idx rhs' lhs' t').
Proof.
  intros Hl. induction rhs as [|r rhs IH]; intros [|r' rhs'] idx t t' Hr Ht E; try (destruct Hr; fail); [cbn; auto|].
  destruct Hr as [Hx Hr]. cbn [mul_rows is_zero float_num]. rewrite (tw_is_zero _ _ _ Hx). cbn [length] in E.
  destruct (feqb r (fzero f)).
  - apply IH; [exact Hr|exact Ht|unfold flt in *; lia].
  - apply (slice_from_rel e (xorb o1 o2) 0); [exact Ht|]. intros Lk Hs. eapply rrel_bind.
    + unfold mul_row. apply (zipM_rel e (xorb o1 o2) o1 (length rhs)) with (n := 0) (n1 := 0); [exact Hs|exact Hl|rewrite skipn_length; unfold flt in *; lia|].
      intros i x x' y y' Hxx Hyy. cbn [mul add float_num bind rrel]. apply tw_add; [exact Hxx|]. rewrite sg_mul, xorb_comm. apply tw_mul; [exact Hx|exact Hyy].
    + intros z z' [Hz Hzl]. rewrite skipn_length in Hzl. pose proof (rel_length _ _ _ _ _ Hz) as Hz'.
      assert (Hn : rel e (xorb o1 o2) 0 (firstn idx t ++ z) (firstn idx t' ++ z')).
      { apply rel_app; [rewrite Hz'; reflexivity|]. split; [|exact Hz]. rewrite Hzl. apply (rel_split _ _ _ _ _ _ Ht Lk). }
      assert (Hnl : length (firstn idx t ++ z) = length t) by (rewrite app_length, firstn_length, Hzl; unfold flt in *; lia).
      eapply rrel_impl; [|apply (IH rhs' (S idx) _ _ Hr Hn); rewrite Hnl; unfold flt in *; lia].
      cbn beta. rewrite Hnl. auto.
Qed.

Lemma cap_small : (n_max_len O < 2 ^ 62)%N.
Proof. destruct f; reflexivity. Qed.

Lemma slice_mul_rel e o1 o2 a a' b b' : rel e o1 0 a a' -> rel e o2 0 b b' -> vec_ok O a -> vec_ok O b ->
  rrel (fun r r' => rel e (xorb o1 o2) 0 r r' /\ vec_ok O r) (slice_mul O a b) (slice_mul O a' b').
Proof.
  intros Ha Hb Va Vb. unfold slice_mul. rewrite !slice_from_strip. cbn [bind].
  assert (La : length (strip O a) <= length a) by (unfold strip; rewrite skipn_length; apply Nat.le_sub_l).
  assert (Lb : length (strip O b) <= length b) by (unfold strip; rewrite skipn_length; apply Nat.le_sub_l).
  pose proof cap_small as C. unfold vec_ok, len in Va, Vb.
  apply strip_rel in Ha, Hb. revert Ha Hb La Lb. generalize (strip O a), (strip O a'), (strip O b), (strip O b'). intros l l' r r' Hl Hr La Lb.
  unfold len. rewrite (rel_length _ _ _ _ _ Hl), (rel_length _ _ _ _ _ Hr).
  apply rrel_same. intros s Hs. apply rrel_same. intros n Hn. apply rrel_same. intros t Ht.
  unfold vec_repeat in Ht. destruct (N.leb_spec n (n_max_len O)) as [Hc|Hc]; [|discriminate Ht]. injection Ht as <-.
  unfold uadd in Hs. destruct (N.leb_spec (N.of_nat (length r) + N.of_nat (length l)) USIZE_MAX) as [Hu|Hu]; [|unfold USIZE_MAX, flt in *; lia].
  injection Hs as <-. unfold usub in Hn. cbn [n_chk] in Hn.
  destruct (N.leb_spec 1 (N.of_nat (length r) + N.of_nat (length l))) as [H1|H1].
  - injection Hn as <-. eapply rrel_impl; [|apply (mul_rows_rel e o1 o2 l l' r Hl r' 0); [exact Hr|apply rel_zeros|rewrite repeat_length; unfold flt in *; lia]].
    intros z z' [Hz Ez]. split; [exact Hz|]. unfold vec_ok, len. rewrite Ez, repeat_length. unfold flt in *. lia.
  - revert Hc C. generalize (n_max_len O). intros M Hc C. clear - Hn Hc C H1. cbn [n_chk float_num] in Hn. destruct chk; [discriminate Hn|]. assert (K : (N.of_nat (length r) + N.of_nat (length l) = 0)%N) by lia. rewrite K in Hn. apply Ok_inj in Hn.
    assert (E : n = USIZE_MAX) by (rewrite <- Hn; reflexivity). rewrite E in Hc. exfalso. revert Hc C. change USIZE_MAX with 18446744073709551615%N. lia.
Qed.

Lemma strip_ok l : vec_ok O l -> vec_ok O (strip O l).
Proof. unfold vec_ok, len, strip. intros H. rewrite skipn_length. unfold flt in *. lia. Qed.

Lemma mul_ref_rel e o1 o2 a a' b b' : rel e o1 0 a a' -> rel e o2 0 b b' -> vec_ok O a -> vec_ok O b ->
  rrel (fun r r' => rel e (xorb o1 o2) 0 r r' /\ vec_ok O r) (dense_mul_ref O a b) (dense_mul_ref O a' b').
Proof.
  intros Ha Hb Va Vb. unfold dense_mul_ref. eapply rrel_bind; [apply (slice_mul_rel e o1 o2 a a' b b' Ha Hb Va Vb)|].
  intros r r' [Hr Vr]. rewrite !dense_new_ok. cbn [rrel]. split; [apply strip_rel, Hr|apply strip_ok, Vr].
Qed.

Lemma pow_rel e o fuel : forall a a' k, rel e o 0 a a' -> vec_ok O a ->
  rrel (fun r r' => rel e (o && N.odd k) 0 r r' /\ vec_ok O r) (dense_pow O fuel a k) (dense_pow O fuel a' k).
Proof.
  assert (S2 : forall fuel o h h', rel e o 0 h h' -> vec_ok O h ->
    rrel (fun r r' => rel e false 0 r r' /\ vec_ok O r) (dense_pow O fuel h 2) (dense_pow O fuel h' 2)).
  { intros [|g] o' h h' Hh Vh; [exact I|]. cbn [dense_pow N.eqb Pos.eqb]. rewrite <- (xorb_nilpotent o'). apply mul_ref_rel; assumption. }
  revert o. induction fuel as [|g IH]; intros o a a' k Ha Va; [exact I|]. cbn [dense_pow].
  destruct (N.eqb_spec k 0) as [->|K0].
  { cbn [rrel N.odd]. rewrite andb_false_r. split; [|unfold vec_ok; destruct f; vm_compute; discriminate]. cbn [rel length]. split; [|exact I].
    unfold sg. rewrite andb_false_r. apply tw_id. }
  destruct (N.eqb_spec k 1) as [->|K1].
  { rewrite !dense_new_ok. cbn [rrel N.odd]. rewrite andb_true_r. split; [apply strip_rel, Ha|apply strip_ok, Va]. }
  destruct (N.eqb_spec k 2) as [->|K2].
  { cbn [N.odd]. rewrite andb_false_r. rewrite <- (xorb_nilpotent o). apply mul_ref_rel; assumption. }
  destruct (N.eqb_spec (k mod 2) 0) as [E|E].
  - assert (Hodd : N.odd k = false).
    { rewrite <- N.negb_even. apply negb_false_iff, N.even_spec. exists (k / 2)%N. pose proof (N.div_mod k 2 ltac:(discriminate)). lia. }
    rewrite Hodd, andb_false_r. eapply rrel_bind; [apply (IH o a a' (k / 2)%N Ha Va)|]. intros h h' [Hh Vh]. apply (S2 g _ h h' Hh Vh).
  - assert (Hodd : N.odd k = true).
    { apply N.odd_spec. exists (k / 2)%N. pose proof (N.div_mod k 2 ltac:(discriminate)) as D1. pose proof (N.mod_lt k 2 ltac:(discriminate)) as D2.
      clear - D1 D2 E. revert D1 D2 E. generalize (k / 2)%N, (k mod 2)%N. intros q r. lia. }
    assert (Heven : N.odd (k - 1) = false) by (rewrite N.sub_1_r, N.odd_pred, <- N.negb_odd, Hodd by lia; reflexivity).
    rewrite Hodd, andb_true_r. eapply rrel_bind; [apply (IH o a a' (k - 1)%N Ha Va)|]. rewrite Heven, andb_false_r. intros h h' [Hh Vh].
    rewrite <- (xorb_false_r o). apply mul_ref_rel; assumption.
Qed.

(** Values. *)
Lemma split_last_rel e o n a a' : rel e o n a a' ->
  match split_last a, split_last a' with
  | None, None => a = [] /\ a' = []
  | Some (x, l), Some (x', l') => tw (sg e o n) x x' /\ rel e o (n + 1) l l' /\ a = l ++ [x]
  | _, _ => False
  end.
Proof.
  intros H. pose proof (split_last_spec a) as K. pose proof (split_last_spec a') as K'. pose proof (rel_length _ _ _ _ _ H) as E.
  destruct (split_last a) as [[x l]|], (split_last a') as [[x' l']|].
  - subst a a'. apply rel_app in H; [|reflexivity]. destruct H as [Hl [Hx _]]. cbn [length] in Hl, Hx. rewrite Nat.add_0_r in Hx. auto.
  - subst a a'. rewrite app_length in E. cbn in E. lia.
  - subst a a'. rewrite app_length in E. cbn in E. lia.
  - auto.
Qed.

Lemma horner_rel e o x x' l : tw e x x' -> forall l' s s', rel e o 1 l l' -> tw (sg e o (length l)) s s' ->
  rrel (tw (sg e o 0)) (foldM (fun sum val => s <- add O sum val ;; mul O s x) s l) (foldM (fun sum val => s <- add O sum val ;; mul O s x') s' l').
Proof.
  intros Hx. induction l as [|y l IH]; intros [|y' l'] s s' Hl Hs; try (destruct Hl; fail); [exact Hs|]. destruct Hl as [Hy Hl].
  cbn [foldM add mul float_num bind length] in *. apply IH; [exact Hl|].
  replace (sg e o (length l)) with (xorb (sg e o (S (length l))) e).
  - apply tw_mul; [|exact Hx]. apply tw_add; [exact Hs|exact Hy].
  - unfold sg. rewrite Nat.odd_succ, <- Nat.negb_odd. destruct e, o, (Nat.odd (length l)); reflexivity.
Qed.

Lemma eval_rel e o a a' x x' : rel e o 0 a a' -> tw e x x' -> rrel (tw o) (dense_eval O a x) (dense_eval O a' x').
Proof.
  intros Ha Hx. unfold dense_eval. pose proof (split_last_rel _ _ _ _ _ Ha) as K.
  assert (E0 : sg e o 0 = o) by (unfold sg; rewrite andb_false_r; apply xorb_false_r).
  destruct (split_last a) as [[c l]|], (split_last a') as [[c' l']|]; try (destruct K; fail).
  - destruct K as (Hc & Hl & _). rewrite E0 in Hc. cbn [is_zero float_num]. rewrite (tw_is_zero _ _ _ Hx). destruct (feqb x (fzero f)); [exact Hc|].
    eapply rrel_bind; [apply (horner_rel e o x x' l Hx l' _ _ Hl), tw_zero|]. intros s s' Hs. rewrite E0 in Hs. cbn [add float_num rrel]. apply tw_add; assumption.
  - apply tw_zero.
Qed.

(** Derivative and integral. *)
Lemma deriv_loop_rel e o n l : forall l' deg, rel e o n l l' -> rrel (fun r r' => rel e o n r r' /\ length r = length l) (deriv_loop O deg l) (deriv_loop O deg l').
Proof.
  induction l as [|x l IH]; intros [|x' l'] deg Hl; try (destruct Hl; fail); [cbn; auto|]. destruct Hl as [Hx Hl].
  cbn [deriv_loop sub mul float_num bind]. eapply rrel_bind; [apply (IH l' _ Hl)|]. intros r r' [Hr Er]. cbn [rrel rel length]. rewrite Er.
  split; [|reflexivity]. split; [|exact Hr]. rewrite <- (xorb_false_r (sg _ _ _)). apply tw_mul; [exact Hx|apply tw_id].
Qed.
Lemma integ_loop_rel e o n l : forall l' deg, rel e o n l l' -> rrel (fun r r' => rel e o n r r' /\ length r = length l) (integ_loop O deg l) (integ_loop O deg l').
Proof.
  induction l as [|x l IH]; intros [|x' l'] deg Hl; try (destruct Hl; fail); [cbn; auto|]. destruct Hl as [Hx Hl].
  cbn [integ_loop sub div float_num bind]. eapply rrel_bind; [apply (IH l' _ Hl)|]. intros r r' [Hr Er]. cbn [rrel rel length]. rewrite Er.
  split; [|reflexivity]. split; [|exact Hr]. rewrite <- (xorb_false_r (sg _ _ _)). apply (tw_div _ false _ _ deg Hx).
Qed.

Lemma rel_up e o (l l' : list (flt f)) : rel e o 1 l l' <-> rel e (xorb o e) 0 l l'.
Proof. rewrite (rel_raise e o 0 1). cbn [Nat.odd Nat.even negb]. rewrite andb_true_r. tauto. Qed.

Lemma derivative_rel e o a a' : rel e o 0 a a' -> rrel (rel e (xorb o e) 0) (dense_derivative O a) (dense_derivative O a').
Proof.
  intros H. unfold dense_derivative. rewrite !slice_from_strip, !first_nonzero_index_fnz. pose proof (strip_rel _ _ _ _ _ H) as Hs.
  assert (E : fnz O a' = fnz O a).
  { pose proof (rel_length _ _ _ _ _ Hs) as K. unfold strip in K. rewrite !skipn_length in K. pose proof (fnz_le O a). pose proof (fnz_le O a').
    pose proof (rel_length _ _ _ _ _ H). unfold flt in *. lia. }
  unfold len. rewrite E, (rel_length _ _ _ _ _ H). apply rrel_same. intros n _. apply rrel_same. intros deg _. cbn [bind].
  pose proof (split_last_rel _ _ _ _ _ Hs) as K. destruct (split_last (strip O a)) as [[x l]|], (split_last (strip O a')) as [[x' l']|]; try (destruct K; fail).
  - destruct K as (_ & Hl & _). apply (rel_up e o) in Hl. eapply rrel_impl; [|apply (deriv_loop_rel e (xorb o e) 0 l l' deg Hl)]. intros r r' [Hr _]. exact Hr.
  - exact I.
Qed.
Lemma integral_rel e o a a' : rel e o 0 a a' -> rrel (rel e (xorb o e) 0) (dense_integral O a) (dense_integral O a').
Proof.
  intros H. unfold dense_integral. rewrite !slice_from_strip, !first_nonzero_index_fnz. pose proof (strip_rel _ _ _ _ _ H) as Hs.
  assert (E : fnz O a' = fnz O a).
  { pose proof (rel_length _ _ _ _ _ Hs) as K. unfold strip in K. rewrite !skipn_length in K. pose proof (fnz_le O a). pose proof (fnz_le O a').
    pose proof (rel_length _ _ _ _ _ H). unfold flt in *. lia. }
  unfold len. rewrite E, (rel_length _ _ _ _ _ H). apply rrel_same. intros n _. apply rrel_same. intros deg _. cbn [bind].
  eapply rrel_bind; [apply (integ_loop_rel e o 0 _ _ deg Hs)|]. intros r r' [Hr _]. unfold vec_grow, len. rewrite (rel_length _ _ _ _ _ Hr).
  apply rrel_same. intros _ _. cbn [rrel]. apply rel_app; [reflexivity|]. split; [|split; [apply tw_zero|exact I]].
  apply (rel_up e (xorb o e)). rewrite xorb_assoc, xorb_nilpotent, xorb_false_r. exact Hr.
Qed.

(** Sums, differences, multiples. *)
Lemma zip_suffix_rel e o (g : flt f -> flt f -> res (flt f)) a a' m m' : rel e o 0 a a' -> rel e o 0 m m' -> length m <= length a ->
  (forall s x x' y y', tw s x x' -> tw s y y' -> rrel (tw s) (g x y) (g x' y')) ->
  rrel (rel e o 0) (zip_suffix g a (length a - length m) m) (zip_suffix g a' (length a' - length m') m').
Proof.
  intros Ha Hm Hle Hg. unfold zip_suffix. rewrite (rel_length _ _ _ _ _ Ha), (rel_length _ _ _ _ _ Hm).
  apply (slice_from_rel e o 0); [exact Ha|]. intros Lk Hs. eapply rrel_bind.
  - apply (zipM_rel e o o 0) with (n := 0) (n1 := 0); [exact Hs|exact Hm|rewrite skipn_length; unfold flt in *; lia|].
    intros i x x' y y' Hx Hy. rewrite Nat.add_0_r in *. apply Hg; assumption.
  - intros z z' [Hz El]. cbn [rrel]. apply rel_app; [symmetry; apply (rel_length _ _ _ _ _ Hz)|]. split; [|exact Hz].
    rewrite El, skipn_length. apply (rel_split _ _ _ _ _ _ Ha Lk).
Qed.

Lemma add_rel e o a a' b b' : rel e o 0 a a' -> rel e o 0 b b' ->
  rrel (rel e o 0) (dense_add O a b) (dense_add O a' b') /\ rrel (rel e o 0) (dense_add_assign O a b) (dense_add_assign O a' b').
Proof.
  intros Ha Hb.
  assert (G : forall s x x' y y', tw s x x' -> tw s y y' -> rrel (tw s) (add O x y) (add O x' y')) by (intros; cbn; apply tw_add; assumption).
  unfold dense_add, dense_add_assign. rewrite (rel_length _ _ _ _ _ Ha), (rel_length _ _ _ _ _ Hb).
  destruct (Nat.ltb_spec (length a) (length b)) as [H|H].
  - pose proof (zip_suffix_rel e o (fun t v => add O t v) b b' a a' Hb Ha ltac:(apply Nat.lt_le_incl, H) G) as K.
    rewrite (rel_length _ _ _ _ _ Ha), (rel_length _ _ _ _ _ Hb) in K. rewrite ?(rel_length _ _ _ _ _ Ha), ?(rel_length _ _ _ _ _ Hb).
    split; [|exact K]. eapply rrel_bind; [exact K|]. intros r r'. apply dense_new_rel.
  - pose proof (zip_suffix_rel e o (fun t v => add O t v) a a' b b' Ha Hb H G) as K.
    rewrite (rel_length _ _ _ _ _ Ha), (rel_length _ _ _ _ _ Hb) in K. rewrite ?(rel_length _ _ _ _ _ Ha), ?(rel_length _ _ _ _ _ Hb).
    split; [|exact K]. eapply rrel_bind; [exact K|]. intros r r'. apply dense_new_rel.
Qed.

Lemma neg_rel e o n a a' : rel e o n a a' -> rrel (fun r r' => rel e o n r r' /\ length r = length a) (mapM (neg O) a) (mapM (neg O) a').
Proof. intros H. apply (mapM_rel e o o n _ _ _ _ H). intros i x x' Hx. cbn. apply tw_opp, Hx. Qed.

Lemma sub_rel e o a a' b b' : rel e o 0 a a' -> rel e o 0 b b' ->
  rrel (rel e o 0) (dense_sub O a b) (dense_sub O a' b') /\ rrel (rel e o 0) (dense_sub_assign_ref O a b) (dense_sub_assign_ref O a' b').
Proof.
  intros Ha Hb.
  assert (G : forall s x x' y y', tw s x x' -> tw s y y' -> rrel (tw s) (sub O x y) (sub O x' y')) by (intros; cbn; apply tw_sub; assumption).
  unfold dense_sub, dense_sub_assign, dense_sub_assign_ref. rewrite (rel_length _ _ _ _ _ Ha), (rel_length _ _ _ _ _ Hb).
  destruct (Nat.ltb_spec (length a) (length b)) as [H|H].
  - set (k := length b - length a). assert (Hk : k <= length b) by (unfold k; unfold flt in *; lia).
    destruct (rel_split _ _ _ _ _ k Hb Hk) as [H1 H2]. cbn [Nat.add] in H1.
    assert (E : length (skipn k b) = length a) by (rewrite skipn_length; unfold k, flt in *; lia).
    replace (length b - k) with (length a) in H1 by (unfold k, flt in *; lia).
    split.
    + eapply rrel_bind; [apply (neg_rel e o _ _ _ H1)|]. intros r r' [Hr _]. eapply rrel_bind.
      * apply (zipM_rel e o o 0) with (n := 0) (n1 := 0); [exact H2|exact Ha|unfold flt in *; lia|].
        intros i x x' y y' Hx Hy. rewrite Nat.add_0_r in *. apply G; assumption.
      * intros z z' [Hz Ez]. cbn [rrel]. apply rel_app; [symmetry; apply (rel_length _ _ _ _ _ Hz)|]. rewrite Ez, E. auto.
    + eapply rrel_bind.
      * apply (zipM_rel e o o 0) with (n := 0) (n1 := 0); [exact Ha|exact H2|unfold flt in *; lia|].
        intros i x x' y y' Hx Hy. rewrite Nat.add_0_r in *. apply G; assumption.
      * intros z z' [Hz Ez]. eapply rrel_bind; [apply (neg_rel e o _ _ _ H1)|]. intros r r' [Hr _].
        cbn [rrel]. apply rel_app; [symmetry; apply (rel_length _ _ _ _ _ Hz)|]. rewrite Ez. auto.
  - pose proof (zip_suffix_rel e o (fun t v => sub O t v) a a' b b' Ha Hb H G) as K.
    rewrite (rel_length _ _ _ _ _ Ha), (rel_length _ _ _ _ _ Hb) in K. auto.
Qed.

Lemma scale_rel e o s a a' c c' : rel e o 0 a a' -> tw s c c' ->
  rrel (rel e (xorb o s) 0) (dense_scale O a c) (dense_scale O a' c') /\ rrel (rel e (xorb o s) 0) (dense_scale_assign O a c) (dense_scale_assign O a' c').
Proof.
  intros Ha Hc.
  assert (K : rrel (fun r r' => rel e (xorb o s) 0 r r' /\ length r = length a) (mapM (fun x => mul O x c) a) (mapM (fun x => mul O x c') a')).
  { apply (mapM_rel e o _ 0 _ _ _ _ Ha). intros i x x' Hx. cbn.
    replace (sg e (xorb o s) i) with (xorb (sg e o i) s) by (unfold sg; destruct o, s, e, (Nat.odd i); reflexivity). apply tw_mul; assumption. }
  split; [|eapply rrel_impl; [|exact K]; cbn beta; tauto].
  unfold dense_scale. eapply rrel_bind; [exact K|]. intros r r' [Hr _]. apply dense_new_rel, Hr.
Qed.
Lemma div_scalar_rel e o s a a' c : rel e o 0 a a' ->
  rrel (rel e (xorb o s) 0) (dense_div_scalar O a c) (dense_div_scalar O a' (flip s c)) /\
  rrel (rel e (xorb o s) 0) (dense_div_scalar_assign O a c) (dense_div_scalar_assign O a' (flip s c)).
Proof.
  intros Ha.
  assert (K : rrel (fun r r' => rel e (xorb o s) 0 r r' /\ length r = length a) (mapM (fun x => div O x c) a) (mapM (fun x => div O x (flip s c)) a')).
  { apply (mapM_rel e o _ 0 _ _ _ _ Ha). intros i x x' Hx. cbn.
    replace (sg e (xorb o s) i) with (xorb (sg e o i) s) by (unfold sg; destruct o, s, e, (Nat.odd i); reflexivity). apply tw_div; assumption. }
  split; [|eapply rrel_impl; [|exact K]; cbn beta; tauto].
  unfold dense_div_scalar. eapply rrel_bind; [exact K|]. intros r r' [Hr _]. apply dense_new_rel, Hr.
Qed.

(** Division. *)
Lemma first_term_rel e o a a' : rel e o 0 a a' ->
  match first_term O a, first_term O a' with
  | ZeroTerm, ZeroTerm => True
  | TTerm c d, TTerm c' d' => d' = d /\ feqb c (fzero f) = false /\ c' = flip (sg e o (N.to_nat d)) c /\ (N.to_nat d < length a)
  | _, _ => False
  end.
Proof.
  intros H. rewrite !first_term_strip. pose proof (strip_rel _ _ _ _ _ H) as K. pose proof (strip_split O a) as (pre & E & _ & _ & Hz).
  destruct (strip O a) as [|c r], (strip O a') as [|c' r']; try (destruct K; fail); [exact I|]. destruct K as [Hc Hr]. unfold len.
  rewrite (rel_length _ _ _ _ _ Hr), Nnat.Nat2N.id. split; [reflexivity|]. split; [exact Hz|]. split; [apply tw_exact; assumption|].
  rewrite E, app_length. cbn [length]. unfold flt in *. lia.
Qed.

Lemma vec_sub_rel e o1 o2 a a' b b' da db c c' : rel e o1 0 a a' -> rel e o2 0 b b' -> (db <= da)%N -> N.to_nat da < length a -> N.to_nat db < length b ->
  tw (sg e (xorb o1 o2) (N.to_nat da - N.to_nat db)) c c' ->
  rrel (fun r r' => rel e o1 0 r r' /\ length r = length a) (vec_sub_w_scale O a da b db c) (vec_sub_w_scale O a' da b' db c').
Proof.
  intros Ha Hb Hd La Lb Hc. unfold vec_sub_w_scale. cbn [n_chk float_num]. unfold len. rewrite (rel_length _ _ _ _ _ Ha), (rel_length _ _ _ _ _ Hb).
  assert (U : forall (l : list (flt f)) d, N.to_nat d < length l -> usub chk (N.of_nat (length l)) d = Ok (N.of_nat (length l) - d)%N /\
     usub chk (N.of_nat (length l) - d)%N 1 = Ok (N.of_nat (length l) - d - 1)%N).
  { intros l d Hl. unfold usub. destruct (N.leb_spec d (N.of_nat (length l))); [|lia]. destruct (N.leb_spec 1 (N.of_nat (length l) - d)); [|lia]. auto. }
  destruct (U a da La) as [U1 U2], (U b db Lb) as [U3 U4]. rewrite U1. cbn [bind]. rewrite U2. cbn [bind]. rewrite U3. cbn [bind]. rewrite U4. cbn [bind].
  destruct (N.leb_spec (N.of_nat (length a) - da - 1) (N.of_nat (length a))); [|lia].
  destruct (N.leb_spec (N.of_nat (length b) - db - 1) (N.of_nat (length b))); [|lia]. cbn [andb].
  apply (slice_from_rel e o1 0); [exact Ha|]. intros Lk Hs. apply (slice_from_rel e o2 0); [exact Hb|]. intros Lk2 Hs2.
  eapply rrel_bind.
  - apply (zipM_rel e o1 o2 (N.to_nat da - N.to_nat db)) with (n := 0) (n1 := 0); [exact Hs|exact Hs2|rewrite !skipn_length; unfold flt in *; lia|].
    intros i x x' y y' Hx Hy. cbn [mul sub float_num bind rrel]. apply tw_sub; [exact Hx|].
    replace (sg e o1 (i + (N.to_nat da - N.to_nat db))) with (xorb (sg e o2 i) (sg e (xorb o1 o2) (N.to_nat da - N.to_nat db))).
    + apply tw_mul; assumption.
    + unfold sg. rewrite Nat.odd_add. destruct e, o1, o2, (Nat.odd i), (Nat.odd (N.to_nat da - N.to_nat db)); reflexivity.
  - intros z z' [Hz Ez]. rewrite skipn_length in Ez. cbn [rrel]. split.
    + apply rel_app; [symmetry; apply (rel_length _ _ _ _ _ Hz)|]. split; [|exact Hz]. rewrite Ez. apply (rel_split _ _ _ _ _ _ Ha Lk).
    + rewrite app_length, firstn_length, Ez. unfold flt in *. lia.
Qed.

Lemma scale_sg e o1 o2 da db : (db <= da)%N -> sg e (xorb o1 o2) (N.to_nat da - N.to_nat db) = xorb (sg e o1 (N.to_nat da)) (sg e o2 (N.to_nat db)).
Proof.
  intros H. unfold sg. rewrite Nat.odd_sub by lia. destruct e, o1, o2, (Nat.odd (N.to_nat da)), (Nat.odd (N.to_nat db)); reflexivity.
Qed.

Lemma div_loop_rel e o1 o2 b b' lead db fuel : forall off c a a' q q' da, let lead' := flip (sg e o2 (N.to_nat db)) lead in
  rel e o2 0 b b' -> N.to_nat db < length b -> rel e o1 0 a a' -> vec_ok O a -> N.to_nat da < length a ->
  rel e (xorb o1 o2) 0 q q' -> len q = (off - db + 1)%N -> (db <= off)%N -> (off < n_max_len O)%N ->
  rrel (fun s s' => rel e (xorb o1 o2) 0 (fst s) (fst s') /\ rel e o1 0 (snd s) (snd s'))
    (div_loop O fuel b lead db off c da a q) (div_loop O fuel b' lead' db off (flip (sg e o1 (N.to_nat da)) c) da a' q').
Proof.
  induction fuel as [|g IH]; intros off c a a' q q' da lead' Hb Lb Ha Va La Hq Eq Ho Hcap; [exact I|]. cbn [div_loop].
  destruct (N.leb_spec db da) as [Hd|Hd]; [|cbn; auto]. cbn [div float_num bind].
  assert (Hs : tw (sg e (xorb o1 o2) (N.to_nat da - N.to_nat db)) (fdiv c lead) (fdiv (flip (sg e o1 (N.to_nat da)) c) lead'))
    by (rewrite scale_sg by exact Hd; apply tw_div, tw_flip).
  eapply rrel_bind; [apply (vec_sub_rel e o1 o2 a a' b b' da db _ _ Ha Hb Hd La Lb Hs)|]. intros r r' [Hr Er].
  apply rrel_same. intros i Hi. eapply rrel_bind with (P := fun s s' => rel e (xorb o1 o2) 0 s s' /\ length s = length q).
  - unfold update, len. rewrite (rel_length _ _ _ _ _ Hq). destruct (N.ltb_spec i (N.of_nat (length q))) as [Hl|Hl]; [|reflexivity].
    apply update_rel; [exact Hq|]. intros Hin x x' _. cbn [rrel Nat.add].
    replace (length q - 1 - N.to_nat i) with (N.to_nat da - N.to_nat db); [exact Hs|].
    unfold len in Eq. pose proof cap_small as C. unfold vec_ok, len in Va. cbn [n_chk float_num] in Hi. unfold usub in Hi.
    destruct (N.leb_spec da off) as [Hdo|Hdo].
    + apply Ok_inj in Hi. unfold flt in *. lia.
    + exfalso. destruct chk; [discriminate Hi|]. apply Ok_inj in Hi. revert Hi. change USIZE_MOD with 18446744073709551616%N. intros Hi.
      rewrite (N.mod_small da) in Hi by (unfold flt in *; lia). rewrite N.mod_small in Hi by (unfold flt in *; lia). unfold flt in *. lia.
  - intros s s' [Hs' Es]. pose proof (first_term_rel e o1 r r' Hr) as F.
    destruct (first_term O r) as [|c1 d1], (first_term O r') as [|c1' d1']; try (destruct F; fail); [cbn; auto|].
    destruct F as (-> & _ & -> & Ld). apply IH; try assumption; unfold vec_ok, len in *; rewrite ?Er, ?Es; assumption.
Qed.

Lemma div_mod_rel e o1 o2 fuel a a' b b' : rel e o1 0 a a' -> rel e o2 0 b b' -> vec_ok O a ->
  rrel (fun s s' => rel e (xorb o1 o2) 0 (fst s) (fst s') /\ rel e o1 0 (snd s) (snd s')) (dense_div_mod O fuel a b) (dense_div_mod O fuel a' b').
Proof.
  intros Ha Hb Va. unfold dense_div_mod. pose proof (first_term_rel e o2 b b' Hb) as F. pose proof (first_term_rel e o1 a a' Ha) as G.
  destruct (first_term O b) as [|lb db], (first_term O b') as [|lb' db']; try (destruct F; fail); [reflexivity|]. destruct F as (-> & _ & -> & Lb).
  destruct (first_term O a) as [|la da], (first_term O a') as [|la' da']; try (destruct G; fail); [cbn; auto|]. destruct G as (-> & _ & -> & La).
  destruct (N.ltb_spec da db) as [Hd|Hd]; [cbn; auto|].
  apply rrel_same. intros n1 Hn1. apply rrel_same. intros n Hn. apply rrel_same. intros q Hq.
  pose proof cap_small as C. pose proof Va as Va'. unfold vec_ok, len in Va'.
  unfold usub in Hn1. destruct (N.leb_spec db da) as [_|]; [|lia]. apply Ok_inj in Hn1. subst n1.
  unfold uadd in Hn. destruct (N.leb_spec (da - db + 1) USIZE_MAX) as [_|X]; [|exfalso; revert X; change USIZE_MAX with 18446744073709551615%N; clear - C Va' La; unfold vec_ok, len in *; lia].
  apply Ok_inj in Hn. subst n. unfold vec_repeat in Hq. destruct (N.leb_spec (da - db + 1) (n_max_len O)) as [Hc|Hc]; [|discriminate Hq]. apply Ok_inj in Hq. subst q.
  eapply rrel_bind with (P := fun s s' => rel e (xorb o1 o2) 0 (fst s) (fst s') /\ rel e o1 0 (snd s) (snd s')).
  - apply div_loop_rel; try assumption; [apply rel_zeros|unfold len; rewrite repeat_length; lia|lia].
  - intros [q r] [q' r'] [Hq Hr]. cbn [fst snd] in *. rewrite !dense_new_ok. cbn [bind rrel fst snd]. split; apply strip_rel; assumption.
Qed.

Lemma rem_assign_loop_rel e o1 o2 b b' lead db fuel : forall c c' a a' da, let lead' := flip (sg e o2 (N.to_nat db)) lead in
  rel e o2 0 b b' -> N.to_nat db < length b -> rel e o1 0 a a' -> N.to_nat da < length a ->
  ((db <= da)%N -> tw (sg e (xorb o1 o2) (N.to_nat da - N.to_nat db)) c c') ->
  rrel (rel e o1 0) (rem_assign_loop O fuel b lead db c da a) (rem_assign_loop O fuel b' lead' db c' da a').
Proof.
  induction fuel as [|g IH]; intros c c' a a' da lead' Hb Lb Ha La Hc; [exact I|]. cbn [rem_assign_loop].
  destruct (N.leb_spec db da) as [Hd|Hd]; [|exact Ha].
  eapply rrel_bind; [apply (vec_sub_rel e o1 o2 a a' b b' da db _ _ Ha Hb Hd La Lb (Hc Hd))|]. intros r r' [Hr Er].
  pose proof (first_term_rel e o1 r r' Hr) as F.
  destruct (first_term O r) as [|c1 d1], (first_term O r') as [|c1' d1']; try (destruct F; fail); [exact Hr|].
  destruct F as (-> & _ & -> & Ld). cbn [div float_num bind]. apply IH; try assumption. intros Hd1. rewrite scale_sg by exact Hd1. apply tw_div, tw_flip.
Qed.

Lemma rem_assign_rel e o1 o2 fuel a a' b b' : rel e o1 0 a a' -> rel e o2 0 b b' ->
  rrel (rel e o1 0) (dense_rem_assign O fuel a b) (dense_rem_assign O fuel a' b').
Proof.
  intros Ha Hb. unfold dense_rem_assign. pose proof (first_term_rel e o2 b b' Hb) as F. pose proof (first_term_rel e o1 a a' Ha) as G.
  destruct (first_term O b) as [|lb db], (first_term O b') as [|lb' db']; try (destruct F; fail); [reflexivity|]. destruct F as (-> & _ & -> & Lb).
  destruct (first_term O a) as [|la da], (first_term O a') as [|la' da']; try (destruct G; fail); [exact Ha|]. destruct G as (-> & _ & -> & La).
  destruct (N.ltb_spec da db) as [Hd|Hd]; [exact Ha|]. cbn [div float_num bind].
  apply rem_assign_loop_rel; try assumption. intros _. rewrite scale_sg by exact Hd. apply tw_div, tw_flip.
Qed.

Lemma rem_loop_rel e o1 o2 p p' b b' lead db fuel : forall c c' a a' da, let lead' := flip (sg e o2 (N.to_nat db)) lead in
  rel e o1 0 p p' -> rel e o2 0 b b' -> N.to_nat db < length b -> rel e o1 0 a a' -> length a = length p -> N.to_nat da < length a ->
  ((db <= da)%N -> tw (sg e (xorb o1 o2) (N.to_nat da - N.to_nat db)) c c') ->
  rrel (rel e o1 0) (rem_loop O fuel p b lead db c da a) (rem_loop O fuel p' b' lead' db c' da a').
Proof.
  induction fuel as [|g IH]; intros c c' a a' da lead' Hp Hb Lb Ha Ep La Hc; [exact I|]. cbn [rem_loop].
  destruct (N.leb_spec db da) as [Hd|Hd]; [|exact Ha].
  eapply rrel_bind; [apply (vec_sub_rel e o1 o2 a a' b b' da db _ _ Ha Hb Hd La Lb (Hc Hd))|]. intros r r' [Hr Er].
  pose proof (first_term_rel e o1 p p' Hp) as F.
  destruct (first_term O p) as [|c1 d1], (first_term O p') as [|c1' d1']; try (destruct F; fail); [exact Hr|].
  destruct F as (-> & _ & -> & Ld). cbn [div float_num bind]. apply IH; try assumption; unfold flt in *; try lia.
  intros Hd1. rewrite scale_sg by exact Hd1. apply tw_div, tw_flip.
Qed.
Lemma rem_rel e o1 o2 fuel a a' b b' : rel e o1 0 a a' -> rel e o2 0 b b' ->
  rrel (rel e o1 0) (dense_rem O fuel a b) (dense_rem O fuel a' b').
Proof.
  intros Ha Hb. unfold dense_rem. pose proof (first_term_rel e o2 b b' Hb) as F. pose proof (first_term_rel e o1 a a' Ha) as G.
  destruct (first_term O b) as [|lb db], (first_term O b') as [|lb' db']; try (destruct F; fail); [reflexivity|]. destruct F as (-> & _ & -> & Lb).
  destruct (first_term O a) as [|la da], (first_term O a') as [|la' da']; try (destruct G; fail); [exact Ha|]. destruct G as (-> & _ & -> & La).
  destruct (N.ltb_spec da db) as [Hd|Hd]; [exact Ha|]. cbn [div float_num bind]. eapply rrel_bind; [|intros r r'; apply dense_new_rel].
  apply rem_loop_rel; try assumption; [reflexivity|]. intros _. rewrite scale_sg by exact Hd. apply tw_div, tw_flip.
Qed.
End Ops.

(** ** Theorems *)

Definition mres {f} (e o : bool) : res (list (flt f)) -> res (list (flt f)) -> Prop := rrel (mirrored e o).

Lemma mres_rel {f} e o (x y : res (list (flt f))) : rrel (rel e o 0) x y -> mres e o x y.
Proof. apply rrel_impl. intros a b. apply rel_mirrored. Qed.

(** Every operation on mirror images gives the mirror image of its result, bit for bit up to the sign of a zero,
    infinities and NaN included; it panics for the one exactly when it panics for the other. *)
Theorem C103_dense : forall chk f powi e o1 o2 (a a' b b' : list (flt f)), let O := float_num chk f powi in
  mirrored e o1 a a' -> mirrored e o2 b b' -> vec_ok O a -> vec_ok O b ->
  (forall x, rrel (tw o1) (dense_eval O a x) (dense_eval O a' (flip e x))) /\
  (o1 = o2 -> mres e o1 (dense_add O a b) (dense_add O a' b') /\ mres e o1 (dense_add_assign O a b) (dense_add_assign O a' b') /\
              mres e o1 (dense_sub O a b) (dense_sub O a' b') /\ mres e o1 (dense_sub_assign_ref O a b) (dense_sub_assign_ref O a' b')) /\
  mres e o1 (dense_neg O a) (dense_neg O a') /\
  (forall s c, mres e (xorb o1 s) (dense_scale O a c) (dense_scale O a' (flip s c)) /\
               mres e (xorb o1 s) (dense_div_scalar O a c) (dense_div_scalar O a' (flip s c))) /\
  mres e (xorb o1 o2) (dense_mul O a b) (dense_mul O a' b') /\ mres e (xorb o1 o2) (dense_mul_ref O a b) (dense_mul_ref O a' b') /\
  (forall fuel k, mres e (o1 && N.odd k) (dense_pow O fuel a k) (dense_pow O fuel a' k)) /\
  mres e (xorb o1 e) (dense_derivative O a) (dense_derivative O a') /\
  mres e (xorb o1 e) (dense_integral O a) (dense_integral O a').
Proof.
  intros chk f powi e o1 o2 a a' b b' O Ha Hb Va Vb. apply rel_mirrored in Ha, Hb.
  split; [intros x; apply (eval_rel f chk powi e o1 a a' x (flip e x) Ha (tw_flip e x))|].
  split. { intros <-. destruct (add_rel f chk powi e o1 a a' b b' Ha Hb), (sub_rel f chk powi e o1 a a' b b' Ha Hb). repeat split; apply mres_rel; assumption. }
  split. { apply mres_rel. eapply rrel_impl; [|apply (neg_rel f chk powi e o1 0 a a' Ha)]. cbn beta. tauto. }
  split. { intros s c. split; apply mres_rel; [apply scale_rel; [exact Ha|apply tw_flip]|apply div_scalar_rel, Ha]. }
  split. { apply mres_rel. eapply rrel_impl; [|apply (slice_mul_rel f chk powi e o1 o2 a a' b b' Ha Hb Va Vb)]. cbn beta. tauto. }
  split. { apply mres_rel. eapply rrel_impl; [|apply (mul_ref_rel f chk powi e o1 o2 a a' b b' Ha Hb Va Vb)]. cbn beta. tauto. }
  split. { intros fuel k. apply mres_rel. eapply rrel_impl; [|apply (pow_rel f chk powi e o1 fuel a a' k Ha Va)]. cbn beta. tauto. }
  split; apply mres_rel; [apply derivative_rel, Ha|apply integral_rel, Ha].
Qed.

(** Division: the quotient takes both signs, the remainder that of the dividend. *)
Theorem C103_division : forall chk f powi e o1 o2 fuel (a a' b b' : list (flt f)), let O := float_num chk f powi in
  mirrored e o1 a a' -> mirrored e o2 b b' -> vec_ok O a ->
  rrel (fun s s' => mirrored e (xorb o1 o2) (fst s) (fst s') /\ mirrored e o1 (snd s) (snd s')) (dense_div_mod O fuel a b) (dense_div_mod O fuel a' b') /\
  mres e (xorb o1 o2) (dense_floor_div O fuel a b) (dense_floor_div O fuel a' b') /\
  mres e o1 (dense_rem O fuel a b) (dense_rem O fuel a' b') /\
  mres e o1 (dense_rem_assign O fuel a b) (dense_rem_assign O fuel a' b').
Proof.
  intros chk f powi e o1 o2 fuel a a' b b' O Ha Hb Va. apply rel_mirrored in Ha, Hb.
  assert (K : rrel (fun s s' => mirrored e (xorb o1 o2) (fst s) (fst s') /\ mirrored e o1 (snd s) (snd s')) (dense_div_mod O fuel a b) (dense_div_mod O fuel a' b')).
  { eapply rrel_impl; [|apply (div_mod_rel f chk powi e o1 o2 fuel a a' b b' Ha Hb Va)]. intros s s' [H1 H2]. split; apply rel_mirrored; assumption. }
  split; [exact K|]. split; [|split].
  - unfold dense_floor_div. eapply rrel_bind; [exact K|]. intros s s' [H _]. exact H.
  - apply mres_rel, (rem_rel f chk powi e o1 o2 fuel a a' b b' Ha Hb).
  - apply mres_rel, (rem_assign_rel f chk powi e o1 o2 fuel a a' b b' Ha Hb).
Qed.

(** The two cases met most: a negated polynomial, and one with only even or only odd powers. *)
Theorem C103_even_odd : forall chk f powi (a : list (flt f)), let O := float_num chk f powi in
  (forall n, dense_neg O a = Ok n -> forall x v, dense_eval O a x = Ok v -> exists w, dense_eval O n x = Ok w /\ fsame w (fneg v)) /\
  ((forall d, Nat.odd d = true -> feqb (vcoef a d) (fzero f) = true) ->
     forall x v, dense_eval O a x = Ok v -> exists w, dense_eval O a (fneg x) = Ok w /\ fsame w v) /\
  ((forall d, Nat.odd d = false -> feqb (vcoef a d) (fzero f) = true) ->
     forall x v, dense_eval O a x = Ok v -> exists w, dense_eval O a (fneg x) = Ok w /\ fsame w (fneg v)).
Proof.
  intros chk f powi a O.
  assert (G : forall e o b x v, mirrored e o a b -> dense_eval O a x = Ok v -> exists w, dense_eval O b (flip e x) = Ok w /\ tw o v w).
  { intros e o b x v H Hv. apply rel_mirrored in H. pose proof (eval_rel f chk powi e o a b x (flip e x) H (tw_flip e x)) as K. fold O in K. rewrite Hv in K.
    destruct (dense_eval O b (flip e x)) as [w| |]; try (destruct K; fail). exists w. auto. }
  assert (Z : forall o c, feqb c (fzero f) = true -> tw o c c).
  { intros o c Hc. right. split; [exact Hc|]. apply feqb_zero in Hc. destruct Hc as [s ->]. destruct o; reflexivity. }
  split; [|split].
  - intros n Hn x v Hv. apply (G false true n x v); [|exact Hv]. unfold dense_neg in Hn. cbn [neg float_num O] in Hn. unfold O in Hn. cbn [neg float_num] in Hn.
    rewrite mapM_total in Hn. apply Ok_inj in Hn. subst n. split; [apply map_length|]. intros d. cbn [andb xorb].
    destruct (Nat.ltb_spec d (length a)) as [H|H].
    + unfold vcoef. pose proof (cf_map f fneg a d H) as K. unfold cf in K. rewrite K. apply tw_neg.
    + unfold vcoef. rewrite !nth_overflow by (rewrite rev_length, ?map_length; exact H). apply tw_zero.
  - intros Hz x v Hv. apply (G true false a x v); [|exact Hv]. split; [reflexivity|]. intros d. cbn [andb xorb].
    destruct (Nat.odd d) eqn:E; [apply Z, Hz, E|apply tw_id].
  - intros Hz x v Hv. apply (G true true a x v); [|exact Hv]. split; [reflexivity|]. intros d. cbn [andb xorb].
    destruct (Nat.odd d) eqn:E; cbn [negb]; [apply tw_id|apply Z, Hz, E].
Qed.

(** Roots of a quadratic: -p has the same two, in the other order; p(-x) has the negated ones, in the other order; -p(-x) the
    negated ones in the same order. *)
Theorem C103_quadratic_roots : forall chk f powi cb rd l e o (a b c a' b' c' : flt f),
  let O := float_num chk f powi in let S := ieee_rops f cb rd l in
  feqb a (fzero f) = false -> tw o a a' -> tw (xorb o e) b b' -> tw o c c' ->
  rrel (mirrored_roots e (xorb o e)) (trino_roots O S (MkTrino a b c)) (trino_roots O S (MkTrino a' b' c')).
Proof.
  intros chk f powi cb rd l e o a b c a' b' c' O S Ha Hta Hb Hc. apply tw_exact in Hta; [|exact Ha]. subst a'.
  unfold trino_roots, trinomial_roots, discriminant_trinomial, O, S, ieee_rops.
  cbn [tc0 tc1 tc2 bind mul sub add neg div one zero is_zero is_pos abs_sqrt of_u8 float_num float_rops Z.of_N].
  set (two := f_of_Z f 2). set (four := f_of_Z f 4).
  assert (HD : tw false (fsub (fmul b b) (fmul (fmul a c) four)) (fsub (fmul b' b') (fmul (fmul (flip o a) c') four))).
  { apply tw_sub.
    - rewrite <- (xorb_nilpotent (xorb o e)). apply tw_mul; exact Hb.
    - rewrite <- (xorb_false_r false). apply tw_mul; [|apply tw_id]. rewrite <- (xorb_nilpotent o). apply tw_mul; [apply tw_flip|exact Hc]. }
  set (D := fsub (fmul b b) (fmul (fmul a c) four)) in *. set (D' := fsub (fmul b' b') (fmul (fmul (flip o a) c') four)) in *.
  rewrite (tw_is_zero _ _ _ HD).
  assert (EA : fmul (flip o a) two = flip o (fmul a two)) by (destruct o; [apply fneg_mul_l|reflexivity]). rewrite EA.
  assert (HB : tw e (fdiv (fneg b) (fmul a two)) (fdiv (fneg b') (flip o (fmul a two)))).
  { replace e with (xorb (xorb o e) o) by (destruct o, e; reflexivity). apply tw_div, tw_opp, Hb. }
  set (v := fdiv (fneg b) (fmul a two)) in *. set (v' := fdiv (fneg b') (flip o (fmul a two))) in *.
  destruct (feqb D (fzero f)) eqn:ED.
  - cbn [rrel mirrored_roots fst snd]. destruct (xorb o e); auto.
  - apply tw_exact in HD; [|exact ED]. cbn [flip] in HD. rewrite HD.
    assert (HS : tw o (fdiv (f_abs_sqrt D) (fmul a two)) (fdiv (f_abs_sqrt D) (flip o (fmul a two)))).
    { rewrite <- (xorb_false_l o) at 1. apply tw_div, tw_id. }
    set (s := fdiv (f_abs_sqrt D) (fmul a two)) in *. set (s' := fdiv (f_abs_sqrt D) (flip o (fmul a two))) in *.
    assert (N : tw (negb o) (fneg s) s') by (unfold tw in *; destruct o; cbn [flip negb] in *; rewrite ?neg_neg; exact HS).
    destruct (Bltb (fzero f) D); cbn [rrel mirrored_roots fst snd].
    + destruct o, e; cbn [xorb negb] in *.
      * split; [apply tw_add|apply tw_sub]; assumption.
      * split; [eapply fsame_trans; [apply (tw_add false _ _ _ _ HB N)|apply fsame_sym, fsub_add]|].
        eapply fsame_trans; [apply (tw_sub false _ _ _ _ HB N)|]. cbn [flip]. eapply fsame_trans; [apply fsub_add|]. rewrite neg_neg. apply fsame_refl.
      * split; [eapply fsame_trans; [apply (tw_add true _ _ _ _ HB N)|apply flip_cong, fsame_sym, fsub_add]|].
        eapply fsame_trans; [apply (tw_sub true _ _ _ _ HB N)|]. apply (flip_cong true). eapply fsame_trans; [apply fsub_add|]. rewrite neg_neg. apply fsame_refl.
      * split; [apply tw_add|apply tw_sub]; assumption.
    + assert (N2 : tw (negb o) s (fneg s')) by (unfold tw in *; destruct o; cbn [flip negb] in *; [|apply fneg_cong, HS];
        eapply fsame_trans; [apply fneg_cong, HS|rewrite neg_neg; apply fsame_refl]).
      assert (N3 : tw o (fneg s) (fneg s')) by apply tw_opp, HS.
      destruct o, e; cbn [xorb negb fst snd] in *; auto.
Qed.

(** p = 2x^2 - 3x + 5 and -p(-x) = -2x^2 - 3x - 5, q = x + 7 and q(-x) = -x + 7; x^2 - 1 and its negation. At a root both
    values are +0: the sign of a zero is not mirrored. *)
Example C103_case : forall chk powi cb rd l, let O := float_num chk F64 powi in let S := ieee_rops F64 cb rd l in
  let z := f_of_Z F64 in let zs := map z in
  let a := zs [2; -3; 5]%Z in let a' := [fneg (z 2%Z); z (-3)%Z; fneg (z 5%Z)] in
  let b := zs [1; 7]%Z in let b' := [fneg (z 1%Z); z 7%Z] in
  mirrored true true a a' /\ mirrored true false b b' /\ vec_ok O a /\ vec_ok O b /\
  rmap (map B2SF) (dense_mul O a b) = Ok (map B2SF (zs [2; 11; -16; 35]%Z)) /\
  rmap (map B2SF) (dense_mul O a' b') = Ok (map B2SF (zs [2; -11; -16; -35]%Z)) /\
  rmap (fun s => (map B2SF (fst s), map B2SF (snd s))) (dense_div_mod O 9 a b) = Ok (map B2SF (zs [2; -17]%Z), map B2SF (zs [124]%Z)) /\
  rmap (fun s => (map B2SF (fst s), map B2SF (snd s))) (dense_div_mod O 9 a' b') = Ok (map B2SF (zs [2; 17]%Z), map B2SF (zs [-124]%Z)) /\
  rmap B2SF (dense_eval O (zs [1; 0; -1]%Z) (z 1%Z)) = Ok (B2SF (fzero F64)) /\ rmap B2SF (dense_eval O (zs [-1; 0; 1]%Z) (z 1%Z)) = Ok (B2SF (fzero F64)) /\
  feqb (z 1%Z) (fzero F64) = false.
Proof.
  intros chk powi cb rd l O S z zs a a' b b'.
  split. { apply rel_mirrored. cbn. repeat split; (apply tw_neg || apply tw_id). }
  split. { apply rel_mirrored. cbn. repeat split; (apply tw_neg || apply tw_id). }
  subst O S z zs a a' b b'. destruct chk; repeat split; try (vm_compute; discriminate); vm_compute; reflexivity.
Qed.

Print Assumptions C103_dense.
Print Assumptions C103_division.
Print Assumptions C103_even_odd.
Print Assumptions C103_quadratic_roots.
