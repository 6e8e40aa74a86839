(** Algebra of the specification: sums, convolution, evaluation. *)

From Coq Require Import List NArith ZArith Lia Ring Arith Sorted.
From Verif Require Import Spec.
Import ListNotations.

Section Facts.
Context {R : comring}.
Add Ring Rring : (r_theory R).

Notation "0" := (@r0 R). Notation "1" := (@r1 R).
Infix "+" := (@radd R). Infix "*" := (@rmul R). Infix "-" := (@rsub R).
Notation "- x" := (@ropp R x).
Local Notation "a ≡ b" := (@peq R a b) (at level 70).

(** ** ring odds and ends *)

Lemma radd_0_l (x : car R) : 0 + x = x. Proof. ring. Qed.
Lemma radd_0_r (x : car R) : x + 0 = x. Proof. ring. Qed.
Lemma rmul_0_l (x : car R) : 0 * x = 0. Proof. ring. Qed.
Lemma rmul_0_r (x : car R) : x * 0 = 0. Proof. ring. Qed.
Lemma rmul_1_l (x : car R) : 1 * x = x. Proof. ring. Qed.
Lemma rmul_1_r (x : car R) : x * 1 = x. Proof. ring. Qed.
Lemma radd_comm (x y : car R) : x + y = y + x. Proof. ring. Qed.
Lemma rmul_comm (x y : car R) : x * y = y * x. Proof. ring. Qed.
Lemma radd_assoc (x y z : car R) : x + (y + z) = x + y + z. Proof. ring. Qed.
Lemma rmul_assoc (x y z : car R) : x * (y * z) = x * y * z. Proof. ring. Qed.
Lemma rsub_diag (x : car R) : x - x = 0. Proof. ring. Qed.
Lemma rsub_0_r (x : car R) : x - 0 = x. Proof. ring. Qed.
Lemma rsub_0_l (x : car R) : 0 - x = - x. Proof. ring. Qed.
Lemma ropp_0 : - 0 = @r0 R. Proof. ring. Qed.

Lemma rsub_eq_0 (x y : car R) : x - y = 0 -> x = y.
Proof. intros H. replace x with (x - y + y) by ring. rewrite H. ring. Qed.

Lemma of_nat_add n m : of_nat (n + m)%nat = @of_nat R n + of_nat m.
Proof. induction n as [|n IH]; simpl; [ring|rewrite IH; ring]. Qed.

Lemma rpow_add x n m : @rpow R x (n + m)%nat = rpow x n * rpow x m.
Proof. induction n as [|n IH]; simpl; [ring|rewrite IH; ring]. Qed.

Lemma rpow_mul x n m : @rpow R x (n * m)%nat = rpow (rpow x n) m.
Proof.
  induction m as [|m IH]; simpl.
  - rewrite Nat.mul_0_r. reflexivity.
  - rewrite Nat.mul_succ_r, Nat.add_comm, rpow_add, IH. reflexivity.
Qed.

Lemma rpow_1_l n : @rpow R 1 n = 1.
Proof. induction n as [|n IH]; simpl; [reflexivity|rewrite IH; ring]. Qed.

Lemma rpow_0_l n : n <> O -> @rpow R 0 n = 0.
Proof. destruct n; [congruence|]. intros _. simpl. ring. Qed.

Lemma rpow_mul_base x y n : @rpow R (x * y) n = rpow x n * rpow y n.
Proof. induction n as [|n IH]; simpl; [ring|rewrite IH; ring]. Qed.

(** ** finite sums *)

Lemma sumn_ext f g n : (forall i, (i < n)%nat -> f i = g i) -> @sumn R f n = sumn g n.
Proof.
  induction n as [|n IH]; simpl; intros H; [reflexivity|].
  rewrite IH, (H n) by (intros; try apply H; lia). reflexivity.
Qed.

Lemma sumn_0 f n : (forall i, (i < n)%nat -> f i = 0) -> @sumn R f n = 0.
Proof.
  induction n as [|n IH]; simpl; intros H; [reflexivity|].
  rewrite IH, (H n) by (intros; try apply H; lia). ring.
Qed.

Lemma sumn_add f g n : @sumn R (fun i => f i + g i) n = sumn f n + sumn g n.
Proof. induction n as [|n IH]; simpl; [ring|rewrite IH; ring]. Qed.

Lemma sumn_sub f g n : @sumn R (fun i => f i - g i) n = sumn f n - sumn g n.
Proof. induction n as [|n IH]; simpl; [ring|rewrite IH; ring]. Qed.

Lemma sumn_opp f n : @sumn R (fun i => - f i) n = - sumn f n.
Proof. induction n as [|n IH]; simpl; [ring|rewrite IH; ring]. Qed.

Lemma sumn_mul_l c f n : @sumn R (fun i => c * f i) n = c * sumn f n.
Proof. induction n as [|n IH]; simpl; [ring|rewrite IH; ring]. Qed.

Lemma sumn_mul_r c f n : @sumn R (fun i => f i * c) n = sumn f n * c.
Proof. induction n as [|n IH]; simpl; [ring|rewrite IH; ring]. Qed.

Lemma sumn_split f n m : @sumn R f (n + m)%nat = sumn f n + sumn (fun i => f (n + i)%nat) m.
Proof.
  induction m as [|m IH]; simpl.
  - rewrite Nat.add_0_r. ring.
  - rewrite Nat.add_succ_r. simpl. rewrite IH. ring.
Qed.

Lemma sumn_S_l f n : @sumn R f (S n) = f O + sumn (fun i => f (S i)) n.
Proof. change (S n) with (1 + n)%nat. rewrite sumn_split. simpl. ring. Qed.

Lemma sumn_extend f n m : (n <= m)%nat -> (forall i, (n <= i)%nat -> (i < m)%nat -> f i = 0) ->
  @sumn R f m = sumn f n.
Proof.
  intros H1 H2. replace m with (n + (m - n))%nat by lia. rewrite sumn_split.
  rewrite (sumn_0 (fun i => f (n + i)%nat)); [ring|]. intros i Hi. apply H2; lia.
Qed.

Lemma sumn_rev f n : @sumn R f n = sumn (fun i => f (n - 1 - i)%nat) n.
Proof.
  induction n as [|n IH]; [reflexivity|].
  rewrite (sumn_S_l (fun i => f (S n - 1 - i)%nat)). cbn [sumn]. rewrite IH.
  rewrite radd_comm. f_equal; [f_equal; lia|].
  apply sumn_ext. intros i Hi. f_equal. lia.
Qed.

Lemma sumn_single f n k : (k < n)%nat -> (forall i, (i < n)%nat -> i <> k -> f i = 0) ->
  @sumn R f n = f k.
Proof.
  intros Hk H. replace n with (k + S (n - k - 1))%nat by lia.
  rewrite sumn_split, sumn_S_l.
  rewrite (sumn_0 f k) by (intros; apply H; lia).
  rewrite (sumn_0 (fun i => f (k + S i)%nat)) by (intros; apply H; lia).
  rewrite Nat.add_0_r. ring.
Qed.

(** Exchange of summation over the triangle j <= i < n. *)
Lemma sumn_triangle (f : nat -> nat -> car R) n :
  sumn (fun i => sumn (fun j => f i j) (S i)) n
  = sumn (fun j => sumn (fun k => f (j + k)%nat j) (n - j)) n.
Proof.
  induction n as [|n IH]; [reflexivity|].
  cbn [sumn] in *. rewrite IH. clear IH.
  rewrite (sumn_ext (fun j => sumn (fun k => f (j + k)%nat j) (S n - j))
                    (fun j => sumn (fun k => f (j + k)%nat j) (n - j) + f n j) n).
  - rewrite (sumn_add (fun j => sumn (fun k => f (j + k)%nat j) (n - j)) (fun j => f n j)).
    replace (S n - n)%nat with 1%nat by lia. cbn [sumn]. rewrite Nat.add_0_r. ring.
  - intros i Hi. replace (S n - i)%nat with (S (n - i)) by lia. cbn [sumn].
    f_equal. f_equal. lia.
Qed.

(** ** equality of polynomials *)

Lemma peq_refl (a : poly R) : a ≡ a. Proof. intros d. reflexivity. Qed.
Lemma peq_sym (a b : poly R) : a ≡ b -> b ≡ a. Proof. intros H d. symmetry. apply H. Qed.
Lemma peq_trans (a b c : poly R) : a ≡ b -> b ≡ c -> a ≡ c.
Proof. intros H1 H2 d. rewrite H1. apply H2. Qed.

(** ** convolution *)

Lemma pmul_ext (a a' b b' : poly R) : a ≡ a' -> b ≡ b' -> pmul a b ≡ pmul a' b'.
Proof. intros H1 H2 d. apply sumn_ext. intros i _. rewrite H1, H2. reflexivity. Qed.

Lemma pmul_comm (a b : poly R) : pmul a b ≡ pmul b a.
Proof.
  intros d. unfold pmul. rewrite sumn_rev. apply sumn_ext. intros i Hi.
  replace (S d - 1 - i)%nat with (d - i)%nat by lia.
  replace (d - (d - i))%nat with i by lia. ring.
Qed.

Lemma pmul_assoc (a b c : poly R) : pmul a (pmul b c) ≡ pmul (pmul a b) c.
Proof.
  intros d. unfold pmul. symmetry.
  rewrite (sumn_ext _ (fun i => sumn (fun j => a j * b (i - j)%nat * c (d - i)%nat) (S i))).
  2:{ intros i _. symmetry. apply sumn_mul_r. }
  rewrite (sumn_triangle (fun i j => a j * b (i - j)%nat * c (d - i)%nat)).
  apply sumn_ext. intros j Hj. rewrite <- sumn_mul_l.
  replace (S d - j)%nat with (S (d - j)) by lia.
  apply sumn_ext. intros k Hk.
  replace (j + k - j)%nat with k by lia. replace (d - (j + k))%nat with (d - j - k)%nat by lia. ring.
Qed.

Lemma pmul_padd_l (a b c : poly R) : pmul (padd a b) c ≡ padd (pmul a c) (pmul b c).
Proof.
  intros d. unfold pmul, padd. rewrite <- sumn_add. apply sumn_ext. intros. ring.
Qed.

Lemma pmul_padd_r (a b c : poly R) : pmul a (padd b c) ≡ padd (pmul a b) (pmul a c).
Proof.
  intros d. unfold pmul, padd. rewrite <- sumn_add. apply sumn_ext. intros. ring.
Qed.

Lemma pmul_psub_l (a b c : poly R) : pmul (psub a b) c ≡ psub (pmul a c) (pmul b c).
Proof.
  intros d. unfold pmul, psub. rewrite <- sumn_sub. apply sumn_ext. intros. ring.
Qed.

Lemma pmul_pone_l (a : poly R) : pmul pone a ≡ a.
Proof.
  intros d. unfold pmul. rewrite (sumn_single _ _ O); [|lia|].
  - simpl. rewrite Nat.sub_0_r. ring.
  - intros i _ Hi. destruct i; [congruence|]. simpl. ring.
Qed.

Lemma pmul_pone_r (a : poly R) : pmul a pone ≡ a.
Proof. eapply peq_trans; [apply pmul_comm|apply pmul_pone_l]. Qed.

Lemma pmul_zero_l (a b : poly R) : a ≡ pzero -> pmul a b ≡ pzero.
Proof. intros H d. apply sumn_0. intros i _. rewrite H. unfold pzero. ring. Qed.

Lemma pmul_zero_r (a b : poly R) : b ≡ pzero -> pmul a b ≡ pzero.
Proof. intros H d. apply sumn_0. intros i _. rewrite H. unfold pzero. ring. Qed.

Lemma pmul_pmono_l c k (a : poly R) : pmul (pmono c k) a ≡ fun d => if Nat.ltb d k then 0 else c * a (d - k)%nat.
Proof.
  intros d. unfold pmul. destruct (Nat.ltb_spec d k) as [H|H].
  - apply sumn_0. intros i Hi. unfold pmono. destruct (Nat.eqb_spec i k); [lia|ring].
  - rewrite (sumn_single _ _ k); [|lia|].
    + unfold pmono. rewrite Nat.eqb_refl. reflexivity.
    + intros i _ Hi. unfold pmono. destruct (Nat.eqb_spec i k); [lia|ring].
Qed.

Lemma pmul_pmono_pmono c k c' k' : pmul (pmono c k) (pmono c' k') ≡ @pmono R (c * c') (k + k').
Proof.
  intros d. rewrite pmul_pmono_l. unfold pmono.
  destruct (Nat.ltb_spec d k), (Nat.eqb_spec d (k + k')); try lia; try reflexivity.
  - subst. destruct (Nat.eqb_spec (k + k' - k) k'); [reflexivity|lia].
  - destruct (Nat.eqb_spec (d - k) k'); [lia|ring].
Qed.

Lemma pshl_pmul (a : poly R) k : pshl a k ≡ pmul (pmono 1 k) a.
Proof.
  intros d. rewrite pmul_pmono_l. unfold pshl. destruct (Nat.ltb d k); ring.
Qed.

(** ** powers *)

Lemma ppow_ext (a b : poly R) n : a ≡ b -> ppow a n ≡ ppow b n.
Proof.
  intros H. induction n as [|n IH]; simpl; [apply peq_refl|]. apply pmul_ext; assumption.
Qed.

Lemma ppow_1 (a : poly R) : ppow a 1 ≡ a.
Proof. simpl. apply pmul_pone_r. Qed.

Lemma ppow_add (a : poly R) n m : ppow a (n + m) ≡ pmul (ppow a n) (ppow a m).
Proof.
  induction n as [|n IH]; simpl.
  - apply peq_sym, pmul_pone_l.
  - eapply peq_trans; [apply pmul_ext; [apply peq_refl|apply IH]|]. apply pmul_assoc.
Qed.

Lemma ppow_pmono c k n : ppow (pmono c k) n ≡ @pmono R (rpow c n) (k * n).
Proof.
  induction n as [|n IH]; simpl.
  - rewrite Nat.mul_0_r. intros [|d]; reflexivity.
  - eapply peq_trans; [apply pmul_ext; [apply peq_refl|apply IH]|].
    eapply peq_trans; [apply pmul_pmono_pmono|].
    rewrite Nat.mul_succ_r, Nat.add_comm. apply peq_refl.
Qed.

(** ** evaluation *)

Lemma is_value_fun (a : poly R) x v w : is_value a x v -> is_value a x w -> v = w.
Proof.
  intros (n & Hn & ->) (m & Hm & ->).
  transitivity (sumn (fun i => a i * rpow x i) (Nat.max n m)).
  - symmetry. apply sumn_extend; [lia|]. intros. rewrite Hn by lia. ring.
  - apply sumn_extend; [lia|]. intros. rewrite Hm by lia. ring.
Qed.

Lemma is_value_ext (a b : poly R) x v : a ≡ b -> is_value a x v -> is_value b x v.
Proof.
  intros H (n & Hn & ->). exists n. split.
  - intros i Hi. rewrite <- H. auto.
  - apply sumn_ext. intros i _. rewrite H. reflexivity.
Qed.

Lemma is_value_zero (a : poly R) x : a ≡ pzero -> is_value a x 0.
Proof. intros H. exists O. split; [intros; apply H|reflexivity]. Qed.

Lemma is_value_padd (a b : poly R) x v w :
  is_value a x v -> is_value b x w -> is_value (padd a b) x (v + w).
Proof.
  intros (n & Hn & ->) (m & Hm & ->). exists (Nat.max n m). split.
  - intros i Hi. unfold padd. rewrite Hn, Hm by lia. ring.
  - rewrite <- (sumn_extend (fun i => a i * rpow x i) n (Nat.max n m)).
    + rewrite <- (sumn_extend (fun i => b i * rpow x i) m (Nat.max n m)).
      * rewrite <- sumn_add. apply sumn_ext. intros. unfold padd. ring.
      * lia.
      * intros. rewrite Hm by lia. ring.
    + lia.
    + intros. rewrite Hn by lia. ring.
Qed.

Lemma is_value_popp (a : poly R) x v : is_value a x v -> is_value (popp a) x (- v).
Proof.
  intros (n & Hn & ->). exists n. split.
  - intros i Hi. unfold popp. rewrite Hn by lia. ring.
  - rewrite <- sumn_opp. apply sumn_ext. intros. unfold popp. ring.
Qed.

Lemma is_value_psub (a b : poly R) x v w :
  is_value a x v -> is_value b x w -> is_value (psub a b) x (v - w).
Proof.
  intros H1 H2. replace (v - w) with (v + - w) by ring.
  eapply is_value_ext; [|apply is_value_padd; [exact H1|apply is_value_popp, H2]].
  intros d. unfold padd, popp, psub. ring.
Qed.

Lemma is_value_pscale (a : poly R) x v c : is_value a x v -> is_value (pscale a c) x (v * c).
Proof.
  intros (n & Hn & ->). exists n. split.
  - intros i Hi. unfold pscale. rewrite Hn by lia. ring.
  - rewrite <- sumn_mul_r. apply sumn_ext. intros. unfold pscale. ring.
Qed.

Lemma is_value_pmono c k x : is_value (@pmono R c k) x (c * rpow x k).
Proof.
  exists (S k). split.
  - intros i Hi. unfold pmono. destruct (Nat.eqb_spec i k); [lia|reflexivity].
  - rewrite (sumn_single _ _ k); [|lia|].
    + unfold pmono. rewrite Nat.eqb_refl. reflexivity.
    + intros i _ Hi. unfold pmono. destruct (Nat.eqb_spec i k); [lia|ring].
Qed.

Lemma pmul_support (a b : poly R) n m :
  (forall i, (n <= i)%nat -> a i = 0) -> (forall i, (m <= i)%nat -> b i = 0) ->
  forall i, (n + m <= i)%nat -> pmul a b i = 0.
Proof.
  intros Hn Hm i Hi. apply sumn_0. intros j Hj.
  destruct (Nat.le_gt_cases n j) as [H|H].
  - rewrite Hn by lia. ring.
  - rewrite Hm by lia. ring.
Qed.

Lemma is_value_pmul (a b : poly R) x v w :
  is_value a x v -> is_value b x w -> is_value (pmul a b) x (v * w).
Proof.
  intros (n & Hn & ->) (m & Hm & ->). exists (n + m)%nat. split.
  - apply pmul_support; assumption.
  - unfold pmul.
    rewrite (sumn_ext (fun i => sumn (fun j => a j * b (i - j)%nat) (S i) * rpow x i)
             (fun i => sumn (fun j => a j * b (i - j)%nat * rpow x i) (S i))).
    2:{ intros i _. symmetry. apply sumn_mul_r. }
    rewrite (sumn_triangle (fun i j => a j * b (i - j)%nat * rpow x i)).
    rewrite (sumn_extend _ n (n + m)).
    + rewrite <- sumn_mul_r. apply sumn_ext. intros j Hj.
      rewrite (sumn_extend _ m (n + m - j)).
      * rewrite <- sumn_mul_l. apply sumn_ext. intros k Hk.
        replace (j + k - j)%nat with k by lia. rewrite rpow_add. ring.
      * lia.
      * intros k Hk _. rewrite Hm by lia. ring.
    + lia.
    + intros j Hj _. apply sumn_0. intros k _. rewrite Hn by lia. ring.
Qed.

Lemma is_value_pone x : is_value (@pone R) x 1.
Proof.
  eapply is_value_ext; [|replace 1 with (1 * rpow x 0) by (simpl; ring); apply is_value_pmono].
  intros [|d]; reflexivity.
Qed.

Lemma is_value_ppow (a : poly R) x v n : is_value a x v -> is_value (ppow a n) x (rpow v n).
Proof.
  intros H. induction n as [|n IH]; simpl; [apply is_value_pone|apply is_value_pmul; assumption].
Qed.

(** Value at 0. *)
Lemma is_value_at_0 (a : poly R) v : is_value a 0 v -> v = a O.
Proof.
  intros (n & Hn & ->). destruct n as [|n].
  - simpl. symmetry. apply Hn. lia.
  - rewrite (sumn_single _ _ O); [simpl; ring|lia|].
    intros i _ Hi. rewrite rpow_0_l by assumption. ring.
Qed.

(** ** big-endian coefficient lists *)

Lemma be_coef_nil d : @be_coef R [] d = 0.
Proof. destruct d; reflexivity. Qed.

Lemma be_coef_cons c l d :
  @be_coef R (c :: l) d = if Nat.eqb d (length l) then c else be_coef l d.
Proof.
  unfold be_coef. simpl. destruct (Nat.eqb_spec d (length l)) as [->|H].
  - rewrite app_nth2; rewrite rev_length; [|lia]. rewrite Nat.sub_diag. reflexivity.
  - destruct (Nat.lt_ge_cases d (length l)).
    + rewrite app_nth1 by (rewrite rev_length; lia). reflexivity.
    + rewrite !nth_overflow; [reflexivity|rewrite rev_length; lia|].
      rewrite app_length, rev_length. simpl. lia.
Qed.

Lemma be_coef_overflow l d : (length l <= d)%nat -> @be_coef R l d = 0.
Proof. intros H. unfold be_coef. apply nth_overflow. rewrite rev_length. exact H. Qed.

Lemma be_coef_app l1 l2 d :
  @be_coef R (l1 ++ l2) d =
    if Nat.ltb d (length l2) then be_coef l2 d else be_coef l1 (d - length l2)%nat.
Proof.
  unfold be_coef. rewrite rev_app_distr. destruct (Nat.ltb_spec d (length l2)).
  - apply app_nth1. rewrite rev_length. assumption.
  - rewrite app_nth2 by (rewrite rev_length; assumption). rewrite rev_length. reflexivity.
Qed.

Lemma be_coef_zeros n l d : @be_coef R (repeat 0 n ++ l) d = be_coef l d.
Proof.
  induction n as [|n IH]; simpl; [reflexivity|].
  rewrite be_coef_cons, IH. destruct (Nat.eqb_spec d (length (repeat 0 n ++ l))) as [->|]; [|reflexivity].
  symmetry. apply be_coef_overflow. rewrite app_length. lia.
Qed.

Lemma be_coef_repeat0 n d : @be_coef R (repeat 0 n) d = 0.
Proof. rewrite <- (app_nil_r (repeat 0 n)), be_coef_zeros. apply be_coef_nil. Qed.

Lemma be_coef_inj l1 l2 : length l1 = length l2 -> (forall d, @be_coef R l1 d = be_coef l2 d) -> l1 = l2.
Proof.
  intros Hl H. rewrite <- (rev_involutive l1), <- (rev_involutive l2). f_equal.
  apply (nth_ext _ _ 0 0).
  - rewrite !rev_length. exact Hl.
  - intros n _. apply H.
Qed.

Lemma be_coef_cons_pmono c l : @be_coef R (c :: l) ≡ padd (pmono c (length l)) (be_coef l).
Proof.
  intros d. rewrite be_coef_cons. unfold padd, pmono.
  destruct (Nat.eqb_spec d (length l)) as [->|]; [|ring].
  rewrite be_coef_overflow by lia. ring.
Qed.

(** ** lists of terms *)

Lemma terms_coef_app l1 l2 : @terms_coef R (l1 ++ l2) ≡ padd (terms_coef l1) (terms_coef l2).
Proof.
  induction l1 as [|[c k] l IH]; intros d; simpl.
  - unfold padd, pzero. ring.
  - unfold padd at 1. rewrite IH. unfold padd. ring.
Qed.

Lemma terms_coef_notin l d : ~ In (N.of_nat d) (map snd l) -> @terms_coef R l d = 0.
Proof.
  induction l as [|[c k] l IH]; simpl; intros H; [reflexivity|].
  unfold padd, pmono. rewrite IH by tauto.
  destruct (Nat.eqb_spec d (N.to_nat k)); [|ring]. exfalso. apply H. left. lia.
Qed.

Lemma terms_coef_above l k : Forall (fun t => (snd t < k)%N) l ->
  forall d, (N.to_nat k <= d)%nat -> @terms_coef R l d = 0.
Proof.
  intros H d Hd. apply terms_coef_notin. intros Hin. apply in_map_iff in Hin.
  destruct Hin as ([c k'] & E & Hin). rewrite Forall_forall in H. apply H in Hin. simpl in *. lia.
Qed.

Lemma terms_coef_cons c k l d : @terms_coef R ((c, k) :: l) d =
  (if Nat.eqb d (N.to_nat k) then c else 0) + terms_coef l d.
Proof. reflexivity. Qed.

(** ** listings *)

Lemma is_listing_ext (p q : poly R) ts : p ≡ q -> is_listing p ts -> is_listing q ts.
Proof. intros H (H1 & H2 & H3). repeat split; auto. eapply peq_trans; eauto. Qed.

Lemma is_listing_nil (p : poly R) : is_listing p [] <-> p ≡ pzero.
Proof.
  split.
  - intros (_ & _ & H). apply peq_sym, H.
  - intros H. repeat split; try constructor. apply peq_sym, H.
Qed.

Lemma is_listing_cons_inv (p : poly R) c k ts : is_listing p ((c, k) :: ts) ->
  c <> 0 /\ p (N.to_nat k) = c /\ (forall d, (N.to_nat k < d)%nat -> p d = 0) /\
  Forall (fun t => (snd t < k)%N) ts /\
  is_listing (fun d => if Nat.eqb d (N.to_nat k) then 0 else p d) ts.
Proof.
  intros (H1 & H2 & H3). inversion_clear H1 as [|? ? Hs Hl]. inversion_clear H2 as [|? ? Hc Hn].
  simpl in Hc, Hl. split; [exact Hc|].
  assert (Hz : forall d, (N.to_nat k <= d)%nat -> terms_coef ts d = 0)
    by (apply terms_coef_above; exact Hl).
  split; [|split; [|split; [exact Hl|]]].
  - rewrite <- H3, terms_coef_cons, Nat.eqb_refl, Hz by lia. ring.
  - intros d Hd. rewrite <- H3, terms_coef_cons, Hz by lia.
    destruct (Nat.eqb_spec d (N.to_nat k)); [lia|ring].
  - repeat split; auto. intros d. rewrite <- H3, terms_coef_cons.
    destruct (Nat.eqb_spec d (N.to_nat k)) as [->|]; [apply Hz; lia|ring].
Qed.

Lemma is_listing_cons (p : poly R) c k ts : c <> 0 -> p (N.to_nat k) = c ->
  Forall (fun t => (snd t < k)%N) ts ->
  is_listing (fun d => if Nat.eqb d (N.to_nat k) then 0 else p d) ts ->
  is_listing p ((c, k) :: ts).
Proof.
  intros Hc Hp Hl (H1 & H2 & H3). repeat split.
  - constructor; auto.
  - constructor; auto.
  - intros d. rewrite terms_coef_cons, H3. destruct (Nat.eqb_spec d (N.to_nat k)) as [->|]; [rewrite Hp|]; ring.
Qed.

Lemma is_listing_unique (p : poly R) ts ts' : is_listing p ts -> is_listing p ts' -> ts = ts'.
Proof.
  revert p ts'. induction ts as [|[c k] ts IH]; intros p ts' H H'.
  - apply is_listing_nil in H. destruct ts' as [|[c k] ts']; [reflexivity|].
    apply is_listing_cons_inv in H'. destruct H' as (Hc & Hp & _). rewrite H in Hp. unfold pzero in Hp. congruence.
  - destruct ts' as [|[c' k'] ts'].
    + apply is_listing_nil in H'. apply is_listing_cons_inv in H.
      destruct H as (Hc & Hp & _). rewrite H' in Hp. unfold pzero in Hp. congruence.
    + apply is_listing_cons_inv in H, H'.
      destruct H as (Hc & Hp & Hz & Hl & H), H' as (Hc' & Hp' & Hz' & Hl' & H').
      assert (k = k') as <-.
      { destruct (N.lt_trichotomy k k') as [E|[E|E]]; [|exact E|].
        - rewrite Hz in Hp' by lia. congruence.
        - rewrite Hz' in Hp by lia. congruence. }
      f_equal; [congruence|]. eapply IH; eassumption.
Qed.

(** What a listing says about each exponent. *)
Lemma is_listing_in (p : poly R) ts c k : is_listing p ts ->
  In (c, k) ts <-> (c <> 0 /\ p (N.to_nat k) = c).
Proof.
  revert p. induction ts as [|[c' k'] ts IH]; intros p H.
  - apply is_listing_nil in H. simpl. rewrite H. unfold pzero. split; [tauto|]. intros [H1 H2]. congruence.
  - apply is_listing_cons_inv in H. destruct H as (Hc & Hp & Hz & Hl & H).
    simpl. rewrite (IH _ H). clear IH. split.
    + intros [E|[H1 H2]].
      * inversion E; subst. auto.
      * split; [exact H1|]. destruct (Nat.eqb_spec (N.to_nat k) (N.to_nat k')); congruence.
    + intros [H1 H2]. destruct (N.eq_dec k k') as [->|Hk].
      * left. congruence.
      * right. split; [exact H1|]. destruct (Nat.eqb_spec (N.to_nat k) (N.to_nat k')); [lia|exact H2].
Qed.

Lemma is_listing_degree (p : poly R) ts : is_listing p ts ->
  is_degree p (match ts with [] => None | (_, k) :: _ => Some (N.to_nat k) end).
Proof.
  destruct ts as [|[c k] ts]; intros H.
  - apply is_listing_nil in H. exact H.
  - apply is_listing_cons_inv in H. destruct H as (Hc & Hp & Hz & _). split; [congruence|exact Hz].
Qed.

Lemma is_degree_unique (p : poly R) g g' : is_degree p g -> is_degree p g' -> g = g'.
Proof.
  destruct g as [n|], g' as [m|]; simpl; intros H H'; auto.
  - destruct H as [H1 H2], H' as [H1' H2']. f_equal.
    destruct (Nat.lt_trichotomy n m) as [E|[E|E]]; [|exact E|].
    + rewrite H2 in H1' by exact E. congruence.
    + rewrite H2' in H1 by exact E. congruence.
  - destruct H as [H1 _]. rewrite H' in H1. congruence.
  - destruct H' as [H1 _]. rewrite H in H1. congruence.
Qed.

Lemma is_degree_ext (p q : poly R) g : p ≡ q -> is_degree p g -> is_degree q g.
Proof.
  intros E. destruct g as [n|]; simpl.
  - intros [H1 H2]. split; [rewrite <- E; exact H1|]. intros d Hd. rewrite <- E. auto.
  - intros H d. rewrite <- E. auto.
Qed.

End Facts.
