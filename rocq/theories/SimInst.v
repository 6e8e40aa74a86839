(** Pairs of coefficient types with corresponding values (see Sim.v): integers in a wider integer
    type, integers in a float type, and the same type with and without overflow checks. *)

From Coq Require Import List NArith ZArith Reals Lia Lra Bool Arith Eqdep_dec.
From Coq Require Import ZifyBool ZifyNat ZifyN.
From Flocq Require Import Core BinarySingleNaN.
From Verif Require Import Base Num Spec Laws Terms Dense Sparse Mono Bino Trino Numerics Floats FloatFacts Upcast UpcastFacts Sim.
Import ListNotations.
Local Open Scope Z_scope.

(** ** Integer types *)

Definition same_int {t u} (a : int t) (b : int u) : Prop := ival b = ival a.

(** The values of [t] are values of [u], and [u] accepts every [usize] that [t] accepts. *)
Definition widens (t u : ity) : Prop :=
  imin u <= imin t /\ imax t <= imax u /\
  forall n a, (n <= USIZE_MAX)%N -> iof_usize t n = Some a -> exists b, iof_usize u n = Some b /\ ival b = ival a.

Lemma widens_refl t : widens t t.
Proof. split; [lia|]. split; [lia|]. intros n a _ H. eauto. Qed.

Lemma arith_widen chk t u z a cap : widens t u -> arith true t z = Ok a ->
  rres cap same_int (Ok a) (arith chk u z).
Proof.
  intros (H1 & H2 & _) H. apply arith_checked in H. destruct H as [Hz E].
  assert (Hu : in_range u z = true) by (apply in_range_iff in Hz; apply in_range_iff; lia).
  rewrite arith_in_range by exact Hu. apply rres_ok. unfold same_int. rewrite ival_mk_int by exact Hu. congruence.
Qed.
Lemma sim_arith chk t u z cap : widens t u -> rres cap same_int (arith true t z) (arith chk u z).
Proof.
  intros W. destruct (arith true t z) as [a| |] eqn:E; try exact I. eapply arith_widen; eassumption.
Qed.

Lemma mk_widen t u z : widens t u -> in_range t z = true -> same_int (mk_int t z) (mk_int u z).
Proof.
  intros (H1 & H2 & _) Hz. unfold same_int. rewrite !ival_mk_int; [reflexivity|exact Hz|].
  apply in_range_iff in Hz. apply in_range_iff. lia.
Qed.

Theorem sim_int chk t u cap : widens t u ->
  (cap = true \/ (n_max_len (int_num true t) <= n_max_len (int_num chk u))%N) ->
  sim (int_num true t) (int_num chk u) same_int cap.
Proof.
  intros W Hc. pose proof (imin_max t) as (_ & _ & Ht0 & Ht1). constructor.
  - right. reflexivity.
  - exact Hc.
  - apply mk_widen; [exact W|]. apply in_range_iff. lia.
  - apply mk_widen; [exact W|]. apply in_range_iff. lia.
  - intros a b H. cbn. unfold same_int in H. rewrite H. reflexivity.
  - intros a b a' b' H H'. cbn. unfold same_int in *. rewrite H, H'. reflexivity.
  - intros a b H. cbn. unfold same_int in H. rewrite H. reflexivity.
  - intros a b H. cbn. unfold same_int in H. destruct W as (H1 & H2 & _).
    pose proof (ival_ok a) as Ka. apply in_range_iff in Ka. pose proof (ival_ok b) as Kb. apply in_range_iff in Kb.
    unfold imin in *. destruct (signed t) eqn:Et, (signed u) eqn:Eu; lia.
  - intros a b a' b' H H'. cbn. rewrite H, H'. apply sim_arith, W.
  - intros a b a' b' H H'. cbn. rewrite H, H'. apply sim_arith, W.
  - intros a b a' b' H H'. cbn. rewrite H, H'. apply sim_arith, W.
  - intros a b H. cbn. rewrite H. apply sim_arith, W.
  - intros a b H. cbn. destruct W as (W1 & W2 & W3). pose proof (ival_ok a) as Ka. apply in_range_iff in Ka.
    destruct (signed t) eqn:Et; [|assert (0 <= ival a) by (unfold imin in Ka; rewrite Et in Ka; lia)].
    + destruct (signed u) eqn:Eu; [rewrite H; apply sim_arith; repeat split; assumption|].
      exfalso. unfold imin in W1. rewrite Et, Eu in W1. assert (0 < 2 ^ (bits t - 1)) by (destruct t; reflexivity). lia.
    + destruct (signed u); [|apply rres_ok, H].
      rewrite H, Z.abs_eq by assumption. rewrite arith_in_range by (rewrite <- H; apply ival_ok).
      apply rres_ok. unfold same_int. rewrite <- H, mk_int_ival. reflexivity.
  - intros n a Hn H. cbn in *. destruct W as (_ & _ & W). apply (W n a Hn H).
  - intros n a Hn H. cbn in *. destruct W as (_ & _ & W). apply (W n a Hn H).
Qed.

Theorem sim_int_div chk t u cap : widens t u -> sim_div (int_num true t) (int_num chk u) same_int cap.
Proof.
  intros (W1 & W2 & _) a b a' b' H H'. unfold same_int in H, H'. cbn. unfold idiv. rewrite H, H'. destruct (_ =? 0); [exact I|].
  destruct (in_range t (Z.quot (ival a) (ival a'))) eqn:E; [|exact I].
  assert (Hu : in_range u (Z.quot (ival a) (ival a')) = true) by (apply in_range_iff in E; apply in_range_iff; lia).
  rewrite Hu. apply rres_ok. unfold same_int. rewrite !ival_mk_int by assumption. reflexivity.
Qed.

Lemma sim_ipow_loop chk t u cap : widens t u -> forall p a b c d, same_int a b -> same_int c d ->
  rres cap same_int (ipow_loop true t p a c) (ipow_loop chk u p b d).
Proof.
  intros W p. induction p as [p IH|p IH|]; intros a b c d Hab Hcd; cbn [ipow_loop].
  - eapply rres_bind; [rewrite Hab, Hcd; apply sim_arith, W|]. intros a2 b2 H2.
    eapply rres_bind; [rewrite Hab; apply sim_arith, W|]. intros a3 b3 H3. apply IH; assumption.
  - eapply rres_bind; [rewrite Hab; apply sim_arith, W|]. intros a2 b2 H2. apply IH; assumption.
  - rewrite Hab, Hcd. apply sim_arith, W.
Qed.
Theorem sim_int_upow chk t u cap : widens t u -> sim_upow (int_num true t) (int_num chk u) same_int cap.
Proof.
  intros W a b e H. cbn. unfold iupow, ipow. pose proof (imin_max t) as (_ & _ & Ht0 & Ht1).
  assert (K : same_int (mk_int t 1) (mk_int u 1)) by (apply mk_widen; [exact W|apply in_range_iff; lia]).
  destruct (e mod 2 ^ 32)%N; [apply rres_ok, K|]. apply sim_ipow_loop; assumption.
Qed.

(** ** Integers in a float type *)

(** [y] is exactly the integer [z]. *)
Definition fint {f} (y : flt f) (z : Z) : Prop := is_finite y = true /\ B2R y = IZR z.

Section FInt.
Context (f : fty).
Notation prec := (fprec f).
Notation emax := (femax f).
Notation fexp := (SpecFloat.fexp prec emax).
Implicit Types x y : flt f.

Lemma rnd_small z : Z.abs z <= 2 ^ prec ->
  round radix2 fexp (round_mode mode_NE) (IZR z) = IZR z /\ Rlt_bool (Rabs (IZR z)) (bpow radix2 emax) = true.
Proof.
  intros Hz. split.
  - apply round_generic; [apply valid_rnd_N|apply int_format, Hz].
  - apply Rlt_bool_true, small_lt_emax. pose proof (fsizes f). assert (2 ^ prec <= 2 ^ 64) by (apply Z.pow_le_mono_r; lia). lia.
Qed.

Lemma fint_of_Z z : Z.abs z <= 2 ^ prec -> fint (f_of_Z f z) z.
Proof. intros H. destruct (f_of_Z_small f z H). split; assumption. Qed.
Lemma fint_zero : fint (fzero f) 0.
Proof. split; reflexivity. Qed.

Lemma fint_add x y a b : fint x a -> fint y b -> Z.abs (a + b) <= 2 ^ prec -> fint (fadd x y) (a + b).
Proof.
  intros [Fx Ex] [Fy Ey] H. destruct (rnd_small _ H) as [R1 R2].
  pose proof (Bplus_correct prec emax _ _ mode_NE x y Fx Fy) as K. rewrite Ex, Ey, <- plus_IZR, R1, R2 in K.
  destruct K as (K1 & K2 & _). split; assumption.
Qed.
Lemma fint_sub x y a b : fint x a -> fint y b -> Z.abs (a - b) <= 2 ^ prec -> fint (fsub x y) (a - b).
Proof.
  intros [Fx Ex] [Fy Ey] H. destruct (rnd_small _ H) as [R1 R2].
  pose proof (Bminus_correct prec emax _ _ mode_NE x y Fx Fy) as K. rewrite Ex, Ey, <- minus_IZR, R1, R2 in K.
  destruct K as (K1 & K2 & _). split; assumption.
Qed.
Lemma fint_mul x y a b : fint x a -> fint y b -> Z.abs (a * b) <= 2 ^ prec -> fint (fmul x y) (a * b).
Proof.
  intros [Fx Ex] [Fy Ey] H. destruct (rnd_small _ H) as [R1 R2].
  pose proof (Bmult_correct prec emax _ _ mode_NE x y) as K. rewrite Ex, Ey, <- mult_IZR, R1, R2 in K.
  destruct K as (K1 & K2 & _). unfold fint, fmul. rewrite K2, Fx, Fy. split; [reflexivity|exact K1].
Qed.
Lemma fint_neg x a : fint x a -> fint (fneg x) (- a).
Proof.
  intros [Fx Ex]. unfold fint, fneg. rewrite is_finite_Bopp, B2R_Bopp, Ex, opp_IZR. split; [exact Fx|reflexivity].
Qed.
Lemma fint_abs x a : fint x a -> fint (Babs x) (Z.abs a).
Proof.
  intros [Fx Ex]. unfold fint. rewrite is_finite_Babs, B2R_Babs, Ex, abs_IZR. split; [exact Fx|reflexivity].
Qed.
Lemma fint_eqb x y a b : fint x a -> fint y b -> feqb x y = (a =? b).
Proof.
  intros [Fx Ex] [Fy Ey]. unfold feqb. rewrite Beqb_correct by assumption. rewrite Ex, Ey.
  case Req_bool_spec; intros H.
  - apply eq_IZR in H. lia.
  - destruct (Z.eqb_spec a b) as [->|]; [congruence|reflexivity].
Qed.
Lemma fint_pos y b : fint y b -> Bltb (fzero f) y = (0 <? b).
Proof.
  intros [Fy Ey]. rewrite Bltb_correct; [|reflexivity|exact Fy]. rewrite Ey. change (B2R (fzero f)) with (IZR 0).
  case Rlt_bool_spec; intros H.
  - apply lt_IZR in H. lia.
  - apply le_IZR in H. lia.
Qed.
Lemma f_cont_limit_small : Z.of_N (f_cont_limit f) <= 2 ^ prec.
Proof. destruct f; vm_compute; discriminate. Qed.
Lemma f_exact_small n : (n <= USIZE_MAX)%N -> Z.of_N n <= 2 ^ prec -> f_of_exact f n = Some (f_of_Z f (Z.of_N n)).
Proof.
  intros Hn H. unfold f_of_exact. destruct (f_of_Z_small f (Z.of_N n)) as [A B]; [lia|].
  rewrite (f_to_usize_int f _ n B A Hn). rewrite N.eqb_refl. reflexivity.
Qed.
End FInt.

(** Any type of exact integers within the float type's exact range. *)
Section ExactFloat.
Context {A : Type} (OA : num A) (den : A -> Z) (chk : bool) (f : fty) (powi : flt f -> N -> flt f) (cap : bool).
Hypothesis L : lawful OA Z_ring den.
Hypothesis Hchk : n_chk OA = true \/ n_chk OA = chk.
Hypothesis Hcap : cap = true \/ (n_max_len OA <= n_max_len (float_num chk f powi))%N.
Hypothesis Hrange : forall a, Z.abs (den a) <= 2 ^ fprec f.
Hypothesis Hpos : forall a, is_pos OA a = (0 <? den a).
Hypothesis Hm1 : forall a, is_neg_one OA a = (den a =? -1).
Hypothesis Habs : forall a c, absv OA a = Ok c -> den c = Z.abs (den a).
Hypothesis Hcont : forall n a, of_cont OA n = Some a -> (n <= f_cont_limit f)%N.

Lemma of_nat_Z n : @of_nat Z_ring n = Z.of_nat n.
Proof. induction n as [|n IH]; [reflexivity|]. rewrite Nat2Z.inj_succ. cbn [of_nat]. rewrite IH. cbn [radd r1 Z_ring]. lia. Qed.

Lemma one_small : Z.abs 1 <= 2 ^ fprec f /\ Z.abs (-1) <= 2 ^ fprec f.
Proof. clear. destruct f; split; vm_compute; discriminate. Qed.

Definition fden (a : A) (y : flt f) : Prop := fint y (den a).

Theorem sim_exact_float : sim OA (float_num chk f powi) fden cap.
Proof.
  constructor.
  - cbn. tauto.
  - exact Hcap.
  - unfold fden. rewrite (lw_zero _ _ _ L). apply fint_zero.
  - unfold fden. rewrite (lw_one _ _ _ L). apply fint_of_Z, one_small.
  - intros a b H. cbn. rewrite (fint_eqb f _ _ _ _ H (fint_zero f)). apply bool_iff. rewrite (lw_is_zero _ _ _ L), Z.eqb_eq. reflexivity.
  - intros a b a' b' H H'. cbn. rewrite (fint_eqb f _ _ _ _ H H'). apply bool_iff. rewrite (lw_eqb _ _ _ L), Z.eqb_eq. reflexivity.
  - intros a b H. cbn. rewrite (fint_pos f _ _ H). apply Hpos.
  - intros a b H. cbn [is_neg_one float_num]. rewrite (fint_eqb f _ _ _ (-1) H). { apply Hm1. } apply fint_of_Z, one_small.
  - intros a b a' b' H H'. destruct (add OA a a') as [c| |] eqn:E; try exact I. apply rres_ok.
    pose proof (Hrange c) as K. unfold fden. rewrite (lw_add _ _ _ L _ _ _ E) in K |- *. apply fint_add; assumption.
  - intros a b a' b' H H'. destruct (sub OA a a') as [c| |] eqn:E; try exact I. apply rres_ok.
    pose proof (Hrange c) as K. unfold fden. rewrite (lw_sub _ _ _ L _ _ _ E) in K |- *. apply fint_sub; assumption.
  - intros a b a' b' H H'. destruct (mul OA a a') as [c| |] eqn:E; try exact I. apply rres_ok.
    pose proof (Hrange c) as K. unfold fden. rewrite (lw_mul _ _ _ L _ _ _ E) in K |- *. apply fint_mul; assumption.
  - intros a b H. destruct (neg OA a) as [c| |] eqn:E; try exact I. apply rres_ok.
    unfold fden. rewrite (lw_neg _ _ _ L _ _ E). apply fint_neg, H.
  - intros a b H. destruct (absv OA a) as [c| |] eqn:E; try exact I. apply rres_ok.
    unfold fden. rewrite (Habs _ _ E). apply fint_abs, H.
  - intros n a Hn H. pose proof (lw_cont _ _ _ L _ _ Hn H) as K. rewrite of_nat_Z, N_nat_Z in K.
    exists (f_of_Z f (Z.of_N n)). split.
    + cbn. unfold f_of_cont. pose proof (Hcont _ _ H). destruct (N.ltb_spec (f_cont_limit f) n); [lia|reflexivity].
    + unfold fden. rewrite K. apply fint_of_Z. rewrite <- K. apply Hrange.
  - intros n a Hn H. pose proof (lw_exact _ _ _ L _ _ Hn H) as K. rewrite of_nat_Z, N_nat_Z in K.
    pose proof (Hrange a) as Ka. rewrite K in Ka.
    exists (f_of_Z f (Z.of_N n)). split.
    + cbn. apply f_exact_small; lia.
    + unfold fden. rewrite K. apply fint_of_Z. exact Ka.
Qed.
End ExactFloat.

Theorem sim_int_float chk t f powi : - 2 ^ fprec f <= imin t -> imax t <= 2 ^ fprec f ->
  imax t <= Z.of_N (f_cont_limit f) -> bits t < 64 ->
  sim (int_num true t) (float_num chk f powi) (fden ival f) true.
Proof.
  intros H1 H2 H3 H4. apply sim_exact_float.
  - apply checked_lawful.
  - left. reflexivity.
  - left. reflexivity.
  - intros a. pose proof (ival_ok a) as K. apply in_range_iff in K. lia.
  - reflexivity.
  - intros a. cbn. pose proof (ival_ok a) as K. apply in_range_iff in K. unfold imin in K. destruct (signed t); [reflexivity|lia].
  - intros a c. cbn. destruct (signed t) eqn:E.
    + intros H. apply arith_checked in H. tauto.
    + intros H. inv_ok. pose proof (ival_ok c) as K. apply in_range_iff in K. unfold imin in K. rewrite E in K. lia.
  - intros n a. cbn. unfold iof_usize.
    assert (E : (if signed t then 64 <? bits t else 64 <=? bits t) = false) by (destruct (signed t); lia).
    assert (K : (if imax t <? Z.of_N n then None else Some (mk_int t (Z.of_N n))) = Some a -> (n <= f_cont_limit f)%N).
    { destruct (Z.ltb_spec (imax t) (Z.of_N n)); [discriminate|]. intros _. lia. }
    destruct t; try discriminate; rewrite E; exact K.
Qed.

(** ** The conversion table *)

Lemma iof_eq t n : t <> Isize -> t <> Usize -> (n <= USIZE_MAX)%N ->
  iof_usize t n = if imax t <? Z.of_N n then None else Some (mk_int t (Z.of_N n)).
Proof.
  intros H1 H2 Hn. assert (E : iof_usize t n =
    if (if signed t then 64 <? bits t else 64 <=? bits t) then Some (mk_int t (Z.of_N n))
    else if imax t <? Z.of_N n then None else Some (mk_int t (Z.of_N n))) by (destruct t; congruence || reflexivity).
  rewrite E. clear E. destruct (if signed t then 64 <? bits t else 64 <=? bits t) eqn:C; [|reflexivity].
  destruct (Z.ltb_spec (imax t) (Z.of_N n)) as [K|K]; [|reflexivity]. exfalso.
  change USIZE_MAX with 18446744073709551615%N in Hn.
  assert (18446744073709551615 <= imax t); [|lia]. destruct t; try discriminate C; vm_compute; discriminate.
Qed.
Lemma widens_intro t u : imin u <= imin t -> imax t <= imax u -> t <> Isize -> t <> Usize -> u <> Isize -> u <> Usize -> widens t u.
Proof.
  intros H1 H2 H3 H4 H5 H6. split; [exact H1|]. split; [exact H2|]. intros n a Hn H. rewrite iof_eq in * by assumption.
  destruct (Z.ltb_spec (imax t) (Z.of_N n)) as [K|K]; [discriminate|]. injection H as <-.
  destruct (Z.ltb_spec (imax u) (Z.of_N n)) as [K'|K']; [lia|]. eexists. split; [reflexivity|].
  pose proof (imin_max t). pose proof (imin_max u). rewrite !ival_mk_int; [reflexivity|apply in_range_iff; lia..].
Qed.

(** Two values, possibly of different types, that stand for the same number. *)
Definition same_value (a b : nty) (x : ncar a) (y : ncar b) : Prop := nvalue b y = nvalue a x.

Lemma table_widens t u : In (NI t, NI u) upcast_table -> widens t u.
Proof.
  intros H. apply widens_intro; unfold upcast_table in H; cbn [In] in H;
    repeat (destruct H as [H|H]; [(injection H as <- <-; first [discriminate|vm_compute; discriminate]) || discriminate H|]); contradiction.
Qed.
Lemma table_float t f : In (NI t, NF f) upcast_table ->
  - 2 ^ fprec f <= imin t /\ imax t <= 2 ^ fprec f /\ imax t <= Z.of_N (f_cont_limit f) /\ bits t < 64.
Proof.
  intros H. unfold upcast_table in H; cbn [In] in H;
    repeat (destruct H as [H|H]; [(injection H as <- <-; repeat split; vm_compute; first [discriminate|reflexivity]) || discriminate H|]); contradiction.
Qed.

Lemma sim_ext {A B} (OA : num A) (OB : num B) (r q : A -> B -> Prop) cap : (forall x y, r x y <-> q x y) ->
  sim OA OB r cap -> sim OA OB q cap.
Proof.
  intros H S. assert (M : forall x y, rres cap r x y -> rres cap q x y).
  { intros x y. apply rres_mono. intros a b. apply H. }
  constructor; intros; repeat match goal with K : q _ _ |- _ => apply H in K end; try apply M; try apply H; try (apply S; assumption).
  - destruct (sm_cont _ _ _ _ S n a H0 H1) as (b & E & K). exists b. split; [exact E|apply H, K].
  - destruct (sm_exact _ _ _ _ S n a H0 H1) as (b & E & K). exists b. split; [exact E|apply H, K].
Qed.

Lemma same_int_value t u (x : int t) (y : int u) : same_int x y <-> same_value (NI t) (NI u) x y.
Proof. unfold same_int, same_value. cbn. split; [intros ->; reflexivity|]. intros H. injection H as H. apply eq_IZR, H. Qed.
Lemma fden_value t f (x : int t) (y : flt f) : fden ival f x y <-> same_value (NI t) (NF f) x y.
Proof.
  unfold fden, fint, same_value. cbn [nvalue]. split.
  - intros [F E]. rewrite (f_value_finite _ F), E. reflexivity.
  - intros H. destruct y as [s|s| |s m e Hb]; try discriminate H; (split; [reflexivity|]); cbn [f_value] in H; injection H; auto.
Qed.

(** Every conversion from an integer type. *)
Theorem table_sim chk powi t b : In (NI t, b) upcast_table ->
  sim (num_of true powi (NI t)) (num_of chk powi b) (same_value (NI t) b) true.
Proof.
  intros H. destruct b as [u|f].
  - eapply sim_ext; [apply same_int_value|]. apply sim_int; [apply table_widens, H|left; reflexivity].
  - eapply sim_ext; [apply fden_value|]. destruct (table_float t f H) as (H1 & H2 & H3 & H4).
    apply sim_int_float; assumption.
Qed.
Theorem table_sim_div chk powi t u : In (NI t, NI u) upcast_table ->
  sim_div (num_of true powi (NI t)) (num_of chk powi (NI u)) (same_value (NI t) (NI u)) true.
Proof.
  intros H x y x' y' Hx Hx'. apply same_int_value in Hx, Hx'.
  eapply rres_mono; [|apply (sim_int_div chk t u true (table_widens t u H)); [exact Hx|exact Hx']].
  intros a b. apply same_int_value.
Qed.
Theorem table_sim_upow chk powi t u : In (NI t, NI u) upcast_table ->
  sim_upow (num_of true powi (NI t)) (num_of chk powi (NI u)) (same_value (NI t) (NI u)) true.
Proof.
  intros H x y e Hx. apply same_int_value in Hx.
  eapply rres_mono; [|apply (sim_int_upow chk t u true (table_widens t u H)); exact Hx].
  intros a b. apply same_int_value.
Qed.

(** The same operations with a different bound on the length of vectors. *)
Definition with_max {T} (m : N) (O : num T) : num T :=
  MkNum T (n_chk O) m (zero O) (one O) (is_zero O) (add O) (sub O) (mul O) (div O) (neg O) (eqb O) (is_pos O) (absv O)
    (is_neg_one O) (upow O) (can_negate O) (of_cont O) (of_exact O).
Lemma rres_nocap {X Y} (R : X -> Y -> Prop) x y : y <> Panic PCapacity -> rres true R x y -> rres false R x y.
Proof. intros Hy. destruct x; simpl; auto. intros [H|[_ H]]; [left; exact H|contradiction]. Qed.
Lemma arith_nocap chk t z : arith chk t z <> Panic PCapacity.
Proof. unfold arith. destruct (in_range t z), chk; discriminate. Qed.
Lemma table_sim_nocap chk powi t u : In (NI t, NI u) upcast_table ->
  sim (num_of true powi (NI t)) (with_max (n_max_len (num_of true powi (NI t))) (num_of chk powi (NI u))) (same_value (NI t) (NI u)) false.
Proof.
  intros H. destruct (table_sim chk powi t (NI u) H) as [S1 _ S3 S4 S5 S6 S7 S8 S9 S10 S11 S12 S13 S14 S15].
  constructor; try assumption.
  - right. apply N.le_refl.
  - intros. apply rres_nocap; [apply arith_nocap|]. apply S9; assumption.
  - intros. apply rres_nocap; [apply arith_nocap|]. apply S10; assumption.
  - intros. apply rres_nocap; [apply arith_nocap|]. apply S11; assumption.
  - intros. apply rres_nocap; [apply arith_nocap|]. apply S12; assumption.
  - intros. apply rres_nocap; [|apply S13; assumption]. cbn. destruct (signed u); [apply arith_nocap|discriminate].
Qed.

(** ** The same type, with and without overflow checks *)
Lemma rres_refl {X} cap (x : res X) : rres cap eq x x.
Proof. destruct x; simpl; eauto. Qed.
Theorem release_sim powi a : sim (num_of true powi a) (num_of false powi a) eq false.
Proof.
  destruct a as [t|f].
  - eapply sim_ext; [|apply (sim_int false t t false (widens_refl t)); right; apply N.le_refl].
    intros x y. unfold same_int. split; [intros H; symmetry; apply int_eq, H|intros ->; reflexivity].
  - constructor; cbn; intros; subst; try reflexivity; try apply rres_refl; eauto. right; apply N.le_refl.
Qed.
Theorem release_sim_div powi a : sim_div (num_of true powi a) (num_of false powi a) eq false.
Proof. intros x y x' y' -> ->. destruct a; apply rres_refl. Qed.
Theorem release_sim_upow powi a : sim_upow (num_of true powi a) (num_of false powi a) eq false.
Proof.
  intros x y e ->. destruct a as [t|f]; [|apply rres_refl].
  eapply rres_mono; [|apply (sim_int_upow false t t false (widens_refl t)); reflexivity].
  intros u v H. symmetry. apply int_eq, H.
Qed.
