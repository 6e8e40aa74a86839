(** Complex coefficients.

    Modelled: [num::Complex<N>] (an external crate; /repo/src/polynomial/trinomial.rs 79-97 returns
    polynomials with such coefficients, and the generic methods of the polynomial types accept them):
    [+ - *] and unary minus by the usual formulas, [/] by multiplying with the conjugate and dividing
    both parts by the squared norm, [==], [num::{Zero, One}].

    The traits of numerics.rs (IsPositive, IsNegativeOne, Abs, PowUsize, CanNegate, TryFromUsize...) have
    no impl for complex numbers, so methods which need them do not type check; the fields below which
    stand for them are placeholders. *)

From Coq Require Import List NArith ZArith Lia Bool Ring.
From Coq Require Import ZifyBool ZifyNat ZifyN.
From Verif Require Import Base Num Spec SpecFacts Laws.
Import ListNotations.

(** The squared norm, [re * re + im * im]. *)
Definition c_norm {T} (O : num T) (a : T * T) : res T :=
  x <- mul O (fst a) (fst a) ;; y <- mul O (snd a) (snd a) ;; add O x y.

Definition complex_num {T} (O : num T) : num (T * T) := {|
  n_chk := n_chk O;
  n_max_len := n_max_len O / 2;
  zero := (zero O, zero O);
  one := (one O, zero O);
  is_zero := fun a => is_zero O (fst a) && is_zero O (snd a);
  add := fun a b => re <- add O (fst a) (fst b) ;; im <- add O (snd a) (snd b) ;; Ok (re, im);
  sub := fun a b => re <- sub O (fst a) (fst b) ;; im <- sub O (snd a) (snd b) ;; Ok (re, im);
  mul := fun a b =>
    rr <- mul O (fst a) (fst b) ;; ii <- mul O (snd a) (snd b) ;; re <- sub O rr ii ;;
    ri <- mul O (fst a) (snd b) ;; ir <- mul O (snd a) (fst b) ;; im <- add O ri ir ;; Ok (re, im);
  div := fun a b =>
    n <- c_norm O b ;;
    rr <- mul O (fst a) (fst b) ;; ii <- mul O (snd a) (snd b) ;; re <- add O rr ii ;;
    ir <- mul O (snd a) (fst b) ;; ri <- mul O (fst a) (snd b) ;; im <- sub O ir ri ;;
    x <- div O re n ;; y <- div O im n ;; Ok (x, y);
  neg := fun a => re <- neg O (fst a) ;; im <- neg O (snd a) ;; Ok (re, im);
  eqb := fun a b => eqb O (fst a) (fst b) && eqb O (snd a) (snd b);
  is_pos := fun a => is_pos O (fst a);
  absv := fun a => re <- absv O (fst a) ;; Ok (re, snd a);
  is_neg_one := fun a => is_neg_one O (fst a);
  upow := fun _ _ => Panic PExpect;
  can_negate := can_negate O;
  of_cont := fun n => option_map (fun c => (c, zero O)) (of_cont O n);
  of_exact := fun n => option_map (fun c => (c, zero O)) (of_exact O n)
|}.

(** ** The ring *)

(** Pairs (re, im) over a commutative ring, with i * i = -1. *)
Section Ring.
Context (R : comring).
Add Ring Rring_cx : (r_theory R).
Notation C := (car R * car R)%type.

Definition cx_add (a b : C) : C := (radd (fst a) (fst b), radd (snd a) (snd b)).
Definition cx_sub (a b : C) : C := (rsub (fst a) (fst b), rsub (snd a) (snd b)).
Definition cx_opp (a : C) : C := (ropp (fst a), ropp (snd a)).
Definition cx_mul (a b : C) : C :=
  (rsub (rmul (fst a) (fst b)) (rmul (snd a) (snd b)), radd (rmul (fst a) (snd b)) (rmul (snd a) (fst b))).

Lemma cx_theory : ring_theory (@r0 R, @r0 R) (r1, r0) cx_add cx_mul cx_sub cx_opp eq.
Proof.
  constructor; unfold cx_add, cx_mul, cx_sub, cx_opp; intros; repeat match goal with z : C |- _ => destruct z end;
    cbn [fst snd]; f_equal; ring.
Qed.

Definition cx_ring : comring := MkComring C (r0, r0) (r1, r0) cx_add cx_mul cx_sub cx_opp cx_theory.

Lemma cx_of_nat n : @of_nat cx_ring n = (of_nat n, r0).
Proof. induction n as [|n IH]; [reflexivity|]. cbn. rewrite IH. unfold cx_add. cbn. f_equal. ring. Qed.

(** Parts of a polynomial. *)
Definition p_re (p : poly cx_ring) : poly R := fun d => fst (p d).
Definition p_im (p : poly cx_ring) : poly R := fun d => snd (p d).

Lemma sumn_parts (f : nat -> C) n : @sumn cx_ring f n = (sumn (fun i => fst (f i)) n, sumn (fun i => snd (f i)) n).
Proof. induction n as [|n IH]; [reflexivity|]. cbn [sumn]. rewrite IH. reflexivity. Qed.

Lemma pmul_re (p q : poly cx_ring) : peq (p_re (pmul p q)) (psub (pmul (p_re p) (p_re q)) (pmul (p_im p) (p_im q))).
Proof.
  intros d. unfold p_re, p_im, psub, pmul. rewrite sumn_parts. cbn [fst snd]. rewrite <- sumn_sub. reflexivity.
Qed.
Lemma pmul_im (p q : poly cx_ring) : peq (p_im (pmul p q)) (padd (pmul (p_re p) (p_im q)) (pmul (p_im p) (p_re q))).
Proof.
  intros d. unfold p_re, p_im, padd, pmul. rewrite sumn_parts. cbn [fst snd]. rewrite <- sumn_add. reflexivity.
Qed.

End Ring.

(** ** The coefficient type computes in the ring *)

Definition cx_den {T} {R : comring} (den : T -> car R) (a : T * T) : car (cx_ring R) := (den (fst a), den (snd a)).

Ltac inv_bind := repeat match goal with
  | H : bind ?x _ = Ok _ |- _ => let E := fresh "E" in destruct x eqn:E; cbn [bind] in H; [|discriminate H|discriminate H]
  | H : Ok _ = Ok _ |- _ => injection H as <-
  end.

Theorem complex_lawful {T} (O : num T) R den : lawful O R den -> lawful (complex_num O) (cx_ring R) (cx_den den).
Proof.
  intros L. constructor; cbn [complex_num zero one is_zero eqb add sub mul neg upow of_cont of_exact n_max_len]; unfold cx_den.
  - intros [a a'] [b b'] H. injection H as H1 H2. f_equal; apply (lw_inj _ _ _ L); assumption.
  - cbn. rewrite (lw_zero _ _ _ L). reflexivity.
  - cbn. rewrite (lw_zero _ _ _ L), (lw_one _ _ _ L). reflexivity.
  - intros [a a']. cbn. rewrite andb_true_iff, !(lw_is_zero _ _ _ L). split; [intros [-> ->]; reflexivity|intros H; injection H; auto].
  - intros [a a'] [b b']. cbn. rewrite andb_true_iff, !(lw_eqb _ _ _ L). split; [intros [-> ->]; reflexivity|intros H; injection H; auto].
  - intros [a a'] [b b'] c H. inv_bind. cbn [fst snd] in *. cbn. unfold cx_add. cbn. f_equal; eapply (lw_add _ _ _ L); eassumption.
  - intros [a a'] [b b'] c H. inv_bind. cbn [fst snd] in *. cbn. unfold cx_sub. cbn. f_equal; eapply (lw_sub _ _ _ L); eassumption.
  - intros [a a'] [b b'] c H. inv_bind. cbn [fst snd] in *. cbn. unfold cx_mul. cbn.
    rewrite (lw_sub _ _ _ L _ _ _ E1), (lw_add _ _ _ L _ _ _ E4), (lw_mul _ _ _ L _ _ _ E), (lw_mul _ _ _ L _ _ _ E0),
      (lw_mul _ _ _ L _ _ _ E2), (lw_mul _ _ _ L _ _ _ E3). reflexivity.
  - intros [a a'] c H. inv_bind. cbn [fst snd] in *. cbn. unfold cx_opp. cbn. f_equal; eapply (lw_neg _ _ _ L); eassumption.
  - discriminate.
  - intros n c Hn H. destruct (of_cont O n) as [x|] eqn:E; [|discriminate]. injection H as <-. rewrite cx_of_nat. cbn [fst snd].
    rewrite (lw_cont _ _ _ L _ _ Hn E), (lw_zero _ _ _ L). reflexivity.
  - intros n c Hn H. destruct (of_exact O n) as [x|] eqn:E; [|discriminate]. injection H as <-. rewrite cx_of_nat. cbn [fst snd].
    rewrite (lw_exact _ _ _ L _ _ Hn E), (lw_zero _ _ _ L). reflexivity.
  - pose proof (lw_cap _ _ _ L). pose proof (N.div_le_upper_bound (n_max_len O) 2 (n_max_len O)). lia.
Qed.

Theorem complex_total {T} (O : num T) : total_ops O -> total_ops (complex_num O).
Proof.
  intros H. constructor; cbn [complex_num add sub mul neg].
  - intros a b. destruct (to_add _ H (fst a) (fst b)) as (x & ->). destruct (to_add _ H (snd a) (snd b)) as (y & ->). eexists. reflexivity.
  - intros a b. destruct (to_sub _ H (fst a) (fst b)) as (x & ->). destruct (to_sub _ H (snd a) (snd b)) as (y & ->). eexists. reflexivity.
  - intros a b. destruct (to_mul _ H (fst a) (fst b)) as (x & ->). destruct (to_mul _ H (snd a) (snd b)) as (y & ->). cbn [bind].
    destruct (to_sub _ H x y) as (z & ->). cbn [bind]. destruct (to_mul _ H (fst a) (snd b)) as (v & ->). cbn [bind].
    destruct (to_mul _ H (snd a) (fst b)) as (w & ->). cbn [bind]. destruct (to_add _ H v w) as (u & ->). eexists. reflexivity.
  - intros a. destruct (to_neg _ H (fst a)) as (x & ->). destruct (to_neg _ H (snd a)) as (y & ->). eexists. reflexivity.
Qed.

Theorem complex_prompt {T} (O : num T) : prompt O -> prompt (complex_num O).
Proof.
  intros H. constructor; cbn [complex_num add sub mul div neg upow]; intros; unfold c_norm;
    repeat (apply bind_prompt; [first [apply (pr_add _ H)|apply (pr_sub _ H)|apply (pr_mul _ H)|apply (pr_div _ H)|apply (pr_neg _ H)|
      repeat (apply bind_prompt; [apply (pr_mul _ H)|intros]); apply (pr_add _ H)]|intros]); try discriminate.
Qed.

(** A sum of two squares is zero only if both are. *)
Definition real_like (R : comring) : Prop := forall a b : car R, radd (rmul a a) (rmul b b) = r0 -> a = r0 /\ b = r0.

Section Field.
Context (R : comring).
Add Ring Rring_cf : (r_theory R).

Lemma cx_domain : (forall x y : car R, rmul x y = r0 -> x = r0 \/ y = r0) -> real_like R ->
  forall x y : car (cx_ring R), @rmul (cx_ring R) x y = r0 -> x = r0 \/ y = r0.
Proof.
  intros D S [a b] [c d] H. cbn in H. unfold cx_mul in H. cbn in H. injection H as H1 H2. cbn.
  assert (K : rmul (radd (rmul a a) (rmul b b)) (radd (rmul c c) (rmul d d)) = r0).
  { transitivity (radd (rmul (rsub (rmul a c) (rmul b d)) (rsub (rmul a c) (rmul b d))) (rmul (radd (rmul a d) (rmul b c)) (radd (rmul a d) (rmul b c)))); [ring|].
    rewrite H1, H2. ring. }
  destruct (D _ _ K) as [E|E]; apply S in E; destruct E as [-> ->]; auto.
Qed.

Theorem complex_exact_div {T} (O : num T) (den : T -> car R) : lawful O R den -> total_ops O -> exact_div O R den ->
  (forall x y : car R, rmul x y = r0 -> x = r0 \/ y = r0) -> real_like R -> exact_div (complex_num O) (cx_ring R) (cx_den den).
Proof.
  intros L HT X D S [a a'] [b b'] Hb. cbn [complex_num div is_zero fst snd] in *. unfold c_norm. cbn [fst snd].
  destruct (to_mul _ HT b b) as (x1 & E1). destruct (to_mul _ HT b' b') as (x2 & E2). rewrite E1, E2. cbn [bind].
  destruct (to_add _ HT x1 x2) as (n & En). rewrite En. cbn [bind].
  destruct (to_mul _ HT a b) as (y1 & F1). destruct (to_mul _ HT a' b') as (y2 & F2). rewrite F1, F2. cbn [bind].
  destruct (to_add _ HT y1 y2) as (re & F3). rewrite F3. cbn [bind].
  destruct (to_mul _ HT a' b) as (z1 & G1). destruct (to_mul _ HT a b') as (z2 & G2). rewrite G1, G2. cbn [bind].
  destruct (to_sub _ HT z1 z2) as (im & G3). rewrite G3. cbn [bind].
  assert (Dn : den n = radd (rmul (den b) (den b)) (rmul (den b') (den b'))).
  { rewrite (lw_add _ _ _ L _ _ _ En), (lw_mul _ _ _ L _ _ _ E1), (lw_mul _ _ _ L _ _ _ E2). reflexivity. }
  assert (Nz : is_zero O n = false).
  { destruct (is_zero O n) eqn:Z; [|reflexivity]. apply (lw_is_zero _ _ _ L) in Z. rewrite Dn in Z. apply S in Z. destruct Z as [Z1 Z2].
    apply (lw_is_zero _ _ _ L) in Z1, Z2. rewrite Z1, Z2 in Hb. discriminate. }
  destruct (X re n Nz) as (x & Hx & Ex). destruct (X im n Nz) as (y & Hy & Ey). rewrite Hx, Hy. cbn [bind]. eexists. split; [reflexivity|].
  rewrite (lw_add _ _ _ L _ _ _ F3), (lw_mul _ _ _ L _ _ _ F1), (lw_mul _ _ _ L _ _ _ F2) in Ex.
  rewrite (lw_sub _ _ _ L _ _ _ G3), (lw_mul _ _ _ L _ _ _ G1), (lw_mul _ _ _ L _ _ _ G2) in Ey.
  assert (Nn : den n <> r0) by (intros Z; apply (lw_is_zero _ _ _ L) in Z; congruence).
  assert (cancel : forall u v, rmul u (den n) = rmul v (den n) -> u = v).
  { intros u v E. assert (K : rmul (rsub u v) (den n) = r0) by (transitivity (rsub (rmul u (den n)) (rmul v (den n))); [ring|rewrite E; ring]).
    destruct (D _ _ K) as [Z|Z]; [|contradiction]. transitivity (radd (rsub u v) v); [ring|]. rewrite Z. ring. }
  unfold cx_den. cbn. unfold cx_mul. cbn. f_equal; apply cancel.
  - transitivity (rsub (rmul (rmul (den x) (den n)) (den b)) (rmul (rmul (den y) (den n)) (den b'))); [ring|]. rewrite Ex, Ey, Dn. ring.
  - transitivity (radd (rmul (rmul (den x) (den n)) (den b')) (rmul (rmul (den y) (den n)) (den b))); [ring|]. rewrite Ex, Ey, Dn. ring.
Qed.
End Field.

(** Gaussian integers: both parts of the quotient are truncated. *)
Lemma idiv_ival t a b c : idiv t a b = Ok c -> ival b <> 0%Z /\ ival c = Z.quot (ival a) (ival b).
Proof.
  unfold idiv. destruct (Z.eqb_spec (ival b) 0) as [E|E]; [discriminate|].
  destruct (in_range t (Z.quot (ival a) (ival b))) eqn:R; [|discriminate]. intros H. injection H as <-. split; [exact E|]. apply ival_mk_int, R.
Qed.

Lemma gauss_div t (c b s : int t * int t) : div (complex_num (int_num true t)) c b = Ok s ->
  let n := (ival (fst b) * ival (fst b) + ival (snd b) * ival (snd b))%Z in n <> 0%Z /\
  ival (fst s) = Z.quot (ival (fst c) * ival (fst b) + ival (snd c) * ival (snd b)) n /\
  ival (snd s) = Z.quot (ival (snd c) * ival (fst b) - ival (fst c) * ival (snd b)) n.
Proof.
  intros H n. cbn [complex_num div] in H. unfold c_norm in H. inv_bind. cbn [fst snd]. pose proof (checked_lawful t) as L.
  repeat match goal with
    | H : mul _ _ _ = Ok _ |- _ => apply (lw_mul _ _ _ L) in H
    | H : add _ _ _ = Ok _ |- _ => apply (lw_add _ _ _ L) in H
    | H : sub _ _ _ = Ok _ |- _ => apply (lw_sub _ _ _ L) in H
    | H : div _ _ _ = Ok _ |- _ => apply idiv_ival in H; destruct H
    end.
  cbn [radd rmul rsub Z_ring] in *. subst n. repeat match goal with H : ival _ = _ |- _ => rewrite H in *; clear H end. auto.
Qed.

Theorem gauss_nice t : forall c b s p r, is_zero (complex_num (int_num true t)) b = false -> div (complex_num (int_num true t)) c b = Ok s ->
  mul (complex_num (int_num true t)) b s = Ok p -> sub (complex_num (int_num true t)) c p = Ok r ->
  is_zero (complex_num (int_num true t)) r = true \/ forall z, div (complex_num (int_num true t)) r b = Ok z -> is_zero (complex_num (int_num true t)) z = true.
Proof.
  intros c b s p r _ Hs Hp Hr. right. intros z Hz. pose proof (complex_lawful _ _ _ (checked_lawful t)) as L.
  apply gauss_div in Hs, Hz. apply (lw_mul _ _ _ L) in Hp. apply (lw_sub _ _ _ L) in Hr. apply (lw_is_zero _ _ _ L).
  unfold cx_den in *. cbn in Hp, Hr |- *. unfold cx_mul, cx_sub in *. cbn in Hp, Hr. injection Hp as P1 P2. injection Hr as R1 R2.
  destruct Hs as (N & S1 & S2), Hz as (_ & Z1 & Z2). set (n := (ival (fst b) * ival (fst b) + ival (snd b) * ival (snd b))%Z) in *.
  rewrite P1, P2 in *. rewrite R1, R2 in Z1, Z2. rewrite Z1, Z2.
  set (x := ival (fst s)) in *. set (y := ival (snd s)) in *.
  set (b1 := ival (fst b)) in *. set (b2 := ival (snd b)) in *. set (c1 := ival (fst c)) in *. set (c2 := ival (snd c)) in *.
  replace ((c1 - (b1 * x - b2 * y)) * b1 + (c2 - (b1 * y + b2 * x)) * b2)%Z with (Z.rem (c1 * b1 + c2 * b2) n)
    by (rewrite Z.rem_eq, <- S1 by exact N; unfold n; ring).
  replace ((c2 - (b1 * y + b2 * x)) * b1 - (c1 - (b1 * x - b2 * y)) * b2)%Z with (Z.rem (c2 * b1 - c1 * b2) n)
    by (rewrite Z.rem_eq, <- S2 by exact N; unfold n; ring).
  f_equal; apply Z.quot_small_iff; auto; pose proof (Z.rem_bound_abs (c1 * b1 + c2 * b2) n N); pose proof (Z.rem_bound_abs (c2 * b1 - c1 * b2) n N); lia.
Qed.
