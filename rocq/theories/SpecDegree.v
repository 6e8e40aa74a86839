(** Degrees, synthetic division and the number of roots, for the specification's polynomials. *)

From Coq Require Import List NArith ZArith Lia Ring Arith.
From Verif Require Import Base Num Spec SpecFacts Laws Dense DenseFacts DenseMul DenseCalc DenseDiv.
Import ListNotations.

Section Degrees.
Context {R : comring}.
Add Ring Rring : (r_theory R).
Notation "0" := (@r0 R). Notation "1" := (@r1 R).
Infix "+" := (@radd R). Infix "*" := (@rmul R). Infix "-" := (@rsub R).
Notation "- x" := (@ropp R x).

(** Sum of degrees; the zero polynomial has none. *)
Definition deg_add (g h : option nat) : option nat :=
  match g, h with Some n, Some m => Some (n + m)%nat | _, _ => None end.
(** Order of degrees: that of the zero polynomial is below all others. *)
Definition deg_le (g h : option nat) : Prop :=
  match g, h with None, _ => True | Some _, None => False | Some n, Some m => (n <= m)%nat end.
Definition deg_lt (g h : option nat) : Prop :=
  match g, h with None, Some _ => True | Some n, Some m => (n < m)%nat | _, None => False end.
Definition deg_max (g h : option nat) : option nat :=
  match g, h with None, x | x, None => x | Some n, Some m => Some (Nat.max n m) end.

Lemma degree_vanish (a : poly R) g : is_degree a g <->
  (forall d, deg_lt g (Some d) -> a d = 0) /\ (forall n, g = Some n -> a n <> 0).
Proof.
  destruct g as [n|]; cbn.
  - split; [intros [H1 H2]; split; [exact H2|congruence]|]. intros [H1 H2]. auto.
  - split; [intros H; split; [auto|discriminate]|]. intros [H _] d. auto.
Qed.

Lemma degree_le (a : poly R) g h : is_degree a g -> (forall d, deg_lt h (Some d) -> a d = 0) -> deg_le g h.
Proof.
  intros Hg H. destruct g as [n|]; [|exact I]. destruct Hg as [H1 _]. destruct h as [m|]; cbn in *.
  - destruct (Nat.le_gt_cases n m); [assumption|]. exfalso. apply H1, H. assumption.
  - apply H1, H. exact I.
Qed.

Lemma pmul_degree (HD : domain R) (a b : poly R) g h : is_degree a g -> is_degree b h -> is_degree (pmul a b) (deg_add g h).
Proof.
  destruct g as [n|], h as [m|]; cbn [deg_add].
  - intros [A1 A2] [B1 B2]. split.
    + unfold pmul. rewrite (sumn_single _ _ n); [|lia|].
      * replace (n + m - n)%nat with m by lia. intros K. apply HD in K. tauto.
      * intros i Hi Hn. destruct (Nat.lt_ge_cases i n); [rewrite B2 by lia|rewrite A2 by lia]; ring.
    + intros d Hd. apply sumn_0. intros i Hi. destruct (Nat.lt_ge_cases n i); [rewrite A2 by lia|rewrite B2 by lia]; ring.
  - intros _ B d. apply (pmul_zero_r a b B).
  - intros A _ d. apply (pmul_zero_l a b A).
  - intros A _ d. apply (pmul_zero_l a b A).
Qed.

Lemma pmul_degree_le (a b : poly R) g h : is_degree a g -> is_degree b h -> forall e, is_degree (pmul a b) e -> deg_le e (deg_add g h).
Proof.
  intros Ha Hb e He. apply (degree_le _ _ _ He). intros d Hd. apply sumn_0. intros i Hi.
  destruct g as [n|], h as [m|]; cbn in *.
  - destruct (Nat.lt_ge_cases n i); [rewrite (proj2 Ha) by lia|rewrite (proj2 Hb) by lia]; ring.
  - rewrite Hb. ring. - rewrite Ha. ring. - rewrite Ha. ring.
Qed.

Fixpoint deg_mul (k : nat) (g : option nat) : option nat := match k with O => Some O | S k' => deg_add g (deg_mul k' g) end.

Lemma ppow_degree (HD : domain R) (H10 : 1 <> 0) (a : poly R) g k : is_degree a g -> is_degree (ppow a k) (deg_mul k g).
Proof.
  intros Ha. induction k as [|k IH]; cbn [ppow deg_mul].
  - split; [exact H10|]. intros [|d] Hd; [lia|reflexivity].
  - apply pmul_degree; assumption.
Qed.

Lemma deg_mul_some k n : deg_mul k (Some n) = Some (k * n)%nat.
Proof. induction k as [|k IH]; cbn [deg_mul]; [reflexivity|]. rewrite IH. reflexivity. Qed.

Lemma deg_lt_max g h d : deg_lt (deg_max g h) (Some d) -> deg_lt g (Some d) /\ deg_lt h (Some d).
Proof. destruct g, h; cbn; lia. Qed.

(** Degree of a sum or difference. *)
Lemma sum_degree (op : car R -> car R -> car R) (H00 : op 0 0 = 0) (Hl : forall x, op x 0 = 0 -> x = 0) (Hr : forall x, op 0 x = 0 -> x = 0)
  (a b : poly R) g h e : is_degree a g -> is_degree b h -> is_degree (fun d => op (a d) (b d)) e ->
  deg_le e (deg_max g h) /\ (g <> h -> e = deg_max g h).
Proof.
  intros Ha Hb He. pose proof (proj1 (degree_vanish _ _) Ha) as [A1 A2]. pose proof (proj1 (degree_vanish _ _) Hb) as [B1 B2].
  split.
  - apply (degree_le _ _ _ He). intros d Hd. apply deg_lt_max in Hd. rewrite A1, B1 by tauto. exact H00.
  - intros Hn. apply (is_degree_unique _ _ _ He). apply degree_vanish. split.
    + intros d Hd. apply deg_lt_max in Hd. rewrite A1, B1 by tauto. exact H00.
    + intros n En K. destruct g as [i|], h as [j|]; cbn in En; try congruence.
      * injection En as <-. destruct (Nat.lt_trichotomy i j) as [?|[?|?]]; [|congruence|].
        -- rewrite Nat.max_r in K by lia. rewrite (A1 j) in K by (cbn; lia). apply (B2 j eq_refl), Hr, K.
        -- rewrite Nat.max_l in K by lia. rewrite (B1 i) in K by (cbn; lia). apply (A2 i eq_refl), Hl, K.
      * injection En as <-. rewrite (B1 i) in K by exact I. apply (A2 i eq_refl), Hl, K.
      * injection En as <-. rewrite (A1 j) in K by exact I. apply (B2 j eq_refl), Hr, K.
Qed.

Lemma popp_degree (a : poly R) g : is_degree a g -> is_degree (popp a) g.
Proof.
  assert (N : forall x : car R, - x = 0 -> x = 0) by (intros x Hx; replace x with (- - x) by ring; rewrite Hx; ring).
  destruct g as [n|]; unfold popp; cbn.
  - intros [H1 H2]. split; [auto|]. intros d Hd. rewrite H2 by assumption. ring.
  - intros H d. rewrite H. ring.
Qed.

Lemma pscale_degree (HD : domain R) (a : poly R) c g : c <> 0 -> is_degree a g -> is_degree (pscale a c) g.
Proof.
  intros Hc. destruct g as [n|]; unfold pscale; cbn.
  - intros [H1 H2]. split; [intros K; apply HD in K; tauto|]. intros d Hd. rewrite H2 by assumption. ring.
  - intros H d. rewrite H. ring.
Qed.

Definition deg_pred (g : option nat) : option nat := match g with Some (S n) => Some n | _ => None end.
Definition deg_succ (g : option nat) : option nat := match g with Some n => Some (S n) | None => None end.

Lemma pderiv_degree (HD : domain R) (C : char0 R) (a : poly R) g : is_degree a g -> is_degree (pderiv a) (deg_pred g).
Proof.
  destruct g as [[|n]|]; unfold pderiv; cbn [deg_pred is_degree].
  - intros [_ H] d. rewrite H by lia. ring.
  - intros [H1 H2]. split; [intros K; apply HD in K; destruct K as [K|K]; [apply (C n), K|auto]|].
    intros d Hd. rewrite H2 by lia. ring.
  - intros H d. rewrite H. ring.
Qed.

(** Of an antiderivative without constant term. *)
Lemma pinteg_degree (HD : domain R) (C : char0 R) (a b : poly R) g : b O = 0 -> peq (pderiv b) a ->
  is_degree a g -> is_degree b (deg_succ g).
Proof.
  intros B0 E H.
  assert (Z : forall d, a d = 0 <-> b (S d) = 0).
  { intros d. rewrite <- (E d). unfold pderiv. split; intros K; [apply HD in K; destruct K as [K|K]; [destruct (C d K)|exact K]|rewrite K; ring]. }
  destruct g as [n|]; cbn in *.
  - destruct H as [H1 H2]. split; [rewrite <- Z; exact H1|]. intros [|d] Hd; [lia|]. apply Z, H2. lia.
  - intros [|d]; [exact B0|apply Z, H].
Qed.

Lemma pshl_degree (a : poly R) g k : is_degree a g -> is_degree (pshl a k) (deg_add g (Some k)).
Proof.
  unfold pshl. destruct g as [n|]; cbn [deg_add is_degree].
  - intros [H1 H2]. split.
    + destruct (Nat.ltb_spec (n + k) k); [lia|]. replace (n + k - k)%nat with n by lia. exact H1.
    + intros d Hd. destruct (Nat.ltb_spec d k); [reflexivity|]. apply H2. lia.
  - intros H d. destruct (Nat.ltb_spec d k); [reflexivity|apply H].
Qed.

Definition deg_sub (g : option nat) (k : nat) : option nat :=
  match g with Some n => if (k <=? n)%nat then Some (n - k)%nat else None | None => None end.

Lemma pshr_degree (a : poly R) g k : is_degree a g -> is_degree (pshr a k) (deg_sub g k).
Proof.
  unfold pshr. destruct g as [n|]; cbn [deg_sub is_degree].
  - intros [H1 H2]. destruct (Nat.leb_spec k n); cbn [is_degree].
    + split; [replace (n - k + k)%nat with n by lia; exact H1|]. intros d Hd. apply H2. lia.
    + intros d. apply H2. lia.
  - intros H d. apply H.
Qed.

(** ** Division by x - a *)

(** x - a *)
Definition plin (a : car R) : poly R := fun d => match d with O => - a | 1%nat => 1 | _ => 0 end.

Lemma pmul_plin (q : poly R) a d : pmul q (plin a) d = match d with O => 0 | S d' => q d' end - q d * a.
Proof.
  unfold pmul. destruct d as [|d].
  - cbn. ring.
  - cbn [sumn]. replace (S d - S d)%nat with O by lia. replace (S d - d)%nat with 1%nat by lia. cbn [plin].
    rewrite (sumn_0 _ d); [ring|]. intros i Hi. destruct (S d - i)%nat as [|[|k]] eqn:E; try lia. cbn. ring.
Qed.

Lemma is_value_plin a x : is_value (plin a) x (x - a).
Proof.
  exists 2%nat. split.
  - intros [|[|i]] Hi; try lia. reflexivity.
  - cbn. ring.
Qed.

Lemma plin_degree a : 1 <> 0 -> is_degree (plin a) (Some 1%nat).
Proof. intros H. split; [exact H|]. intros [|[|d]] Hd; try lia. reflexivity. Qed.

Lemma deflate n : forall (p : poly R) a, (forall i, (n <= i)%nat -> p i = 0) ->
  exists q v, peq p (padd (pmul q (plin a)) (pmono v 0)) /\ is_value p a v /\ forall i, (n - 1 <= i)%nat -> q i = 0.
Proof.
  induction n as [|n IH]; intros p a Hn.
  - exists (fun _ => 0), 0. split; [|split; [|auto]].
    + intros d. unfold padd. rewrite pmul_plin. rewrite Hn by lia. unfold pmono. destruct d; cbn; ring.
    + apply is_value_zero. intros d. apply Hn. lia.
  - destruct (IH (pshr p 1) a) as (q & v & E & V & B). { intros i Hi. apply Hn. lia. }
    exists (fun d => match d with O => v | S d' => q d' end), (p O + v * a). split; [|split].
    + intros d. unfold padd. rewrite pmul_plin. unfold pmono. destruct d as [|d]; cbn [Nat.eqb].
      * ring.
      * specialize (E d). unfold pshr, padd in E. rewrite pmul_plin in E. replace (d + 1)%nat with (S d) in E by lia. rewrite E.
        unfold pmono. destruct d; cbn [Nat.eqb]; ring.
    + apply (is_value_ext (padd (pmono (p O) 0) (pshl (pshr p 1) 1))).
      * intros [|d]; unfold padd, pmono, pshl, pshr; cbn [Nat.eqb Nat.ltb Nat.leb]; [ring|]. replace (S d - 1 + 1)%nat with (S d) by lia. ring.
      * apply is_value_padd.
        -- replace (p O) with (p O * rpow a 0) at 2 by (cbn; ring). apply is_value_pmono.
        -- eapply is_value_ext; [apply peq_sym, pshl_pmul|]. replace (v * a) with ((1 * rpow a 1) * v) by (cbn; ring).
           apply is_value_pmul; [apply is_value_pmono|exact V].
    + intros [|i] Hi; [|apply B; lia]. replace v with 0; [reflexivity|]. destruct n as [|n]; [|lia].
      apply (is_value_fun (pshr p 1) a); [|exact V]. apply is_value_zero. intros d. apply Hn. lia.
Qed.

(** A polynomial with as many roots as coefficients is zero. *)
Lemma too_many_roots (HD : domain R) n : forall (p : poly R) xs, (forall i, (n <= i)%nat -> p i = 0) ->
  NoDup xs -> (n <= length xs)%nat -> (forall x, In x xs -> is_value p x 0) -> peq p pzero.
Proof.
  induction n as [|n IH]; intros p xs Hn Hd Hl Hx.
  - intros d. apply Hn. lia.
  - destruct xs as [|a ys]; cbn [length] in Hl; [lia|]. apply NoDup_cons_iff in Hd. destruct Hd as [Hna Hd].
    destruct (deflate (S n) p a Hn) as (q & v & E & V & B).
    assert (v = 0) as -> by (apply (is_value_fun p a); [exact V|apply Hx; left; reflexivity]).
    assert (Q : peq q pzero).
    { apply (IH q ys); [intros i Hi; apply B; lia|exact Hd|lia|]. intros y Hy.
      assert (F : exists w, is_value q y w). { eexists. exists n. split; [intros i Hi; apply B; lia|reflexivity]. }
      destruct F as (w & W).
      assert (K : w * (y - a) = 0).
      { apply (is_value_fun p y); [|apply Hx; right; exact Hy]. eapply is_value_ext; [apply peq_sym, E|].
        replace (w * (y - a)) with (w * (y - a) + 0 * rpow y 0) by (cbn; ring).
        apply is_value_padd; [|apply is_value_pmono]. apply is_value_pmul; [exact W|apply is_value_plin]. }
      apply HD in K. destruct K as [->|K]; [exact W|]. apply rsub_eq_0 in K. subst y. contradiction. }
    intros d. rewrite (E d). unfold padd, pzero. rewrite pmul_plin. unfold pmono. rewrite (Q d).
    destruct d as [|d]; cbn [Nat.eqb]; [|rewrite (Q d)]; unfold pzero; ring.
Qed.

Lemma agree_equal (HD : domain R) n (p q : poly R) xs : (forall i, (n <= i)%nat -> p i = 0) -> (forall i, (n <= i)%nat -> q i = 0) ->
  NoDup xs -> (n <= length xs)%nat -> (forall x, In x xs -> exists v, is_value p x v /\ is_value q x v) -> peq p q.
Proof.
  intros Hp Hq Hd Hl Hx d. apply rsub_eq_0. apply (too_many_roots HD n (psub p q) xs); auto.
  - intros i Hi. unfold psub. rewrite Hp, Hq by assumption. ring.
  - intros x Hi. destruct (Hx x Hi) as (v & V & W). replace 0 with (v - v) by ring. apply is_value_psub; assumption.
Qed.

Lemma is_value_const (p : poly R) x : (forall i, (1 <= i)%nat -> p i = 0) -> is_value p x (p O).
Proof. intros H. exists 1%nat. split; [exact H|]. cbn. ring. Qed.

(** Remainder of division by x - a. *)
Lemma remainder_value (p : poly R) a d q r : 1 <> 0 -> peq d (plin a) -> euclid p d q r -> pfin q ->
  is_value p a (r O) /\ (forall i, (1 <= i)%nat -> r i = 0) /\
  forall x y z, is_value p x y -> is_value q x z -> y = z * (x - a) + r O.
Proof.
  intros H10 Ed [E (k & Hk & Hr)] [n Hn].
  assert (k = 1%nat) as -> by (assert (K := is_degree_unique _ _ _ (is_degree_ext _ _ _ Ed Hk) (plin_degree a H10)); congruence).
  assert (F : forall x, exists z, is_value q x z) by (intros x; eexists; exists n; split; [exact Hn|reflexivity]).
  assert (V : forall x z, is_value q x z -> is_value p x (z * (x - a) + r O)).
  { intros x z Hz. eapply is_value_ext; [apply peq_sym, E|]. apply is_value_padd; [|apply is_value_const, Hr].
    apply is_value_pmul; [exact Hz|]. eapply is_value_ext; [apply peq_sym, Ed|apply is_value_plin]. }
  split; [|split; [exact Hr|]].
  - destruct (F a) as (z & Hz). specialize (V a z Hz). replace (r O) with (z * (a - a) + r O) by ring. exact V.
  - intros x y z Hy Hz. apply (is_value_fun p x); [exact Hy|apply V, Hz].
Qed.

End Degrees.
