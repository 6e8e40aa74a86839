(** Property C114: derivatives taken repeatedly. *)

From Coq Require Import List NArith ZArith Lia Bool Arith Factorial.
From Coq Require Import ZifyBool ZifyNat ZifyN.
From Verif Require Import Base Num Spec SpecFacts Laws Terms Dense Sparse Wrap.
From Verif Require Import DenseFacts DenseArith DenseMul DenseCalc DenseDiv SparseFacts SparseArith SparseCalc.
From Verif Require Import P_Dense1 P_Dense2 P_Sparse1 P_Sparse2 SpecDegree P_Degree P_Newton P_Taylor.
Import ListNotations.
Local Open Scope nat_scope.

(** ** Specification *)

(** The caller takes the derivative of a sparse polynomial n times. *)
Inductive sderivatives {T} (O : num T) : nat -> bmap T -> bmap T -> Prop :=
| sderivatives_none m : sderivatives O 0 m m
| sderivatives_more n m m1 m' : sparse_derivative O m = Ok m1 -> sderivatives O n m1 m' -> sderivatives O (S n) m m'.

(** The coefficient of x^i in the k-th derivative q of p is (i+k)! / i! times the coefficient of x^(i+k) in p. *)
Definition kth_derivative {R : comring} (k : nat) (p q : poly R) : Prop :=
  forall i c, c * fact i = fact (i + k) -> q i = rmul (of_nat c) (p (i + k)).

(** ** Lemmas *)
Section Derivs.
Context {R : comring}.
Add Ring R_ring9 : (r_theory R).

Lemma kth_none (p : poly R) : kth_derivative 0 p p.
Proof.
  intros i c H. rewrite Nat.add_0_r in *. pose proof (lt_O_fact i). assert (c = 1) as -> by nia. cbn [of_nat]. ring.
Qed.

Lemma fact_quot i k : exists c, c * fact i = fact (i + k).
Proof.
  induction k as [|k [c H]]; [exists 1; rewrite Nat.add_0_r; lia|]. exists (S (i + k) * c).
  replace (i + S k) with (S (i + k)) by lia. change (fact (S (i + k))) with (S (i + k) * fact (i + k)). rewrite <- H. ring.
Qed.

Lemma kth_more k (p p1 q : poly R) : peq p1 (pderiv p) -> kth_derivative k p1 q -> kth_derivative (S k) p q.
Proof.
  intros E H i c Hc. destruct (fact_quot i k) as [c1 H1]. rewrite (H i c1 H1), (E (i + k)). unfold pderiv.
  replace (i + S k) with (S (i + k)) in * by lia. change (fact (S (i + k))) with (S (i + k) * fact (i + k)) in Hc.
  pose proof (lt_O_fact i) as F. assert (c = S (i + k) * c1) as ->.
  { apply (Nat.mul_cancel_r _ _ (fact i)); [lia|]. rewrite Hc, <- H1. ring. }
  rewrite of_nat_mul. ring.
Qed.
End Derivs.

(** ** Theorems *)

(** Every exact coefficient type. *)
Theorem C114_coefficients : forall T (O : num T) R den, lawful O R den -> forall k,
  (forall p q, derivatives O k p q -> kth_derivative k (dcoef R den p) (dcoef R den q)) /\
  (forall m q, swf m -> sderivatives O k m q -> swf q /\ kth_derivative k (scoef R den m) (scoef R den q)).
Proof.
  intros T O R den L k. split.
  - intros p q H. induction H as [p|n p p1 q V E H IH]; [apply kth_none|].
    exact (kth_more _ _ _ _ (C13_dense_derivative T O R den L p p1 V E) IH).
  - intros m q W H. induction H as [m|n m m1 q E H IH]; [split; [exact W|apply kth_none]|].
    destruct (C13_sparse_derivative T O R den L m m1 W E) as [W1 E1]. destruct (IH W1) as [W2 K]. split; [exact W2|].
    exact (kth_more _ _ _ _ E1 K).
Qed.

(** Every integer type in a debug build: k derivatives lower the degree by k, more than n leave zero, and the n-th is the
    constant n! times the leading coefficient. *)
Lemma kth_degree k n (p q : poly Z_ring) : kth_derivative k p q -> is_degree p (Some n) ->
  is_degree q (if k <=? n then Some (n - k) else None) /\ (k = n -> q 0 = (Z.of_nat (fact n) * p n)%Z).
Proof.
  intros K [H0 H1]. split.
  - destruct (k <=? n) eqn:E; cbn [is_degree].
    + split.
      * destruct (fact_quot (n - k) k) as [c Hc]. rewrite (K _ c Hc). replace (n - k + k) with n in * by lia.
        rewrite of_nat_Z. pose proof (lt_O_fact n). change (Z.of_nat c * p n <> 0)%Z. change (p n <> 0%Z) in H0.
        assert (c <> 0) by (intros ->; lia). intros X. apply Z.mul_eq_0 in X. lia.
      * intros d Hd. destruct (fact_quot d k) as [c Hc]. rewrite (K _ c Hc), H1 by lia. apply Z.mul_0_r.
    + intros d. destruct (fact_quot d k) as [c Hc]. rewrite (K _ c Hc), H1 by lia. apply Z.mul_0_r.
  - intros ->. rewrite (K 0 (fact n)); [rewrite of_nat_Z; reflexivity|]. cbn [fact Nat.add]. lia.
Qed.

Theorem C114_int : forall t k n,
  (forall p q, derivatives (int_num true t) k p q -> dense_degree (int_num true t) p = Num (N.of_nat n) ->
     dense_degree (int_num true t) q = (if k <=? n then Num (N.of_nat (n - k)) else NegInf) /\
     (k = n -> dcoef Z_ring ival q 0%nat = Z.of_nat (fact n) * dcoef Z_ring ival p n)%Z) /\
  (forall m q, swf m -> sderivatives (int_num true t) k m q -> sparse_degree (int_num true t) m = Num (N.of_nat n) ->
     sparse_degree (int_num true t) q = (if k <=? n then Num (N.of_nat (n - k)) else NegInf) /\
     (k = n -> scoef Z_ring ival q 0%nat = Z.of_nat (fact n) * scoef Z_ring ival m n)%Z).
Proof.
  intros t k n. pose proof (checked_lawful t) as L. destruct (C114_coefficients _ _ _ _ L k) as [D S].
  assert (U : forall (f : poly Z_ring) g, is_degree f (dn g) -> is_degree f (if k <=? n then Some (n - k) else None) ->
    g = (if k <=? n then Num (N.of_nat (n - k)) else NegInf)).
  { intros f g A B. pose proof (is_degree_unique _ _ _ A B) as E. destruct g as [|g]; cbn in E; destruct (k <=? n); try discriminate; [reflexivity|].
    injection E as <-. rewrite N2Nat.id. reflexivity. }
  split.
  - intros p q H Hp. pose proof (C02_dense_degree _ _ _ _ L p) as Dp. rewrite Hp in Dp. cbn [dn] in Dp. rewrite Nat2N.id in Dp.
    destruct (kth_degree k n _ _ (D p q H) Dp) as [A B]. split; [|exact B]. exact (U _ _ (C02_dense_degree _ _ _ _ L q) A).
  - intros m q W H Hm. destruct (C02_sparse_degree _ _ _ _ L m W) as [Dp _]. rewrite Hm in Dp. cbn [dn] in Dp. rewrite Nat2N.id in Dp.
    destruct (S m q W H) as [Wq K]. destruct (kth_degree k n _ _ K Dp) as [A B]. split; [|exact B].
    destruct (C02_sparse_degree _ _ _ _ L q Wq) as [Dq _]. exact (U _ _ Dq A).
Qed.

(** Every integer type in a release build, whatever wraps around: the same coefficients modulo 2^bits. *)
Theorem C114_int_wrapping : forall t k i c, c * fact i = fact (i + k) ->
  (forall p q, derivatives (int_num false t) k p q ->
     (2 ^ bits t | ival (@dcoef _ (w_ring t) (fun a => a) q i) - Z.of_nat c * ival (@dcoef _ (w_ring t) (fun a => a) p (i + k)%nat))%Z) /\
  (forall m q, swf m -> sderivatives (int_num false t) k m q ->
     (2 ^ bits t | ival (@scoef _ (w_ring t) (fun a => a) q i) - Z.of_nat c * ival (@scoef _ (w_ring t) (fun a => a) m (i + k)%nat))%Z).
Proof.
  intros t k i c Hc. destruct (C114_coefficients _ _ _ _ (wrapping_lawful t) k) as [D S].
  assert (G : forall x : int t, (2 ^ bits t | ival (@rmul (w_ring t) (@of_nat (w_ring t) c) x) - Z.of_nat c * ival x)%Z).
  { intros x. assert (E : ival (@rmul (w_ring t) (@of_nat (w_ring t) c) x) = wrap t (ival (@of_nat (w_ring t) c) * ival x)) by reflexivity.
    rewrite E. destruct (of_nat_w t c) as [j ->]. destruct (wrap_mod t ((Z.of_nat c + 2 ^ bits t * j) * ival x)) as [j2 ->].
    generalize (ival x) (Z.of_nat c). intros y f. exists (j * y + j2)%Z. ring. }
  split.
  - intros p q H. exact (eq_ind_r (fun y : int t => (2 ^ bits t | ival y - _)%Z) (G _) (D p q H i c Hc)).
  - intros m q W H. destruct (S m q W H) as [_ K]. exact (eq_ind_r (fun y : int t => (2 ^ bits t | ival y - _)%Z) (G _) (K i c Hc)).
Qed.

Lemma same_map t (x : res (bmap (int t))) l : rmap (map (fun kv => (fst kv, ival (snd kv)))) x = Ok (map (fun kv => (fst kv, ival (snd kv))) l) -> x = Ok l.
Proof.
  destruct x as [m| |]; try discriminate. cbn. intros H. injection H as H. f_equal. revert l H.
  induction m as [|[a b] m IH]; intros [|[c d] l] H; try discriminate; [reflexivity|]. cbn in H. injection H as -> H2 H3.
  f_equal; [f_equal; apply int_eq, H2|apply IH, H3].
Qed.

(** The second derivative of x^3 + 5x^2 is 6x + 10, the third is 6 = 3! and the fourth is zero; 5x^2 + 1 as a sparse polynomial
    has the second derivative 10. *)
Example C114_case : let O := int_num true I32 in let z := mk_int I32 in
  dense_degree O (map z [1; 5; 0; 0]%Z) = Num 3 /\
  derivatives O 2 (map z [1; 5; 0; 0]%Z) (map z [6; 10]%Z) /\ derivatives O 3 (map z [1; 5; 0; 0]%Z) (map z [6]%Z) /\
  swf [(0%N, z 1%Z); (2%N, z 5%Z)] /\ sparse_degree O [(0%N, z 1%Z); (2%N, z 5%Z)] = Num 2 /\
  sderivatives O 2 [(0%N, z 1%Z); (2%N, z 5%Z)] [(0%N, z 10%Z)].
Proof.
  assert (V : forall l : list (int I32), length l < 9 -> vec_ok (int_num true I32) l).
  { intros l Hl. unfold vec_ok, len. apply N.le_trans with 9%N; [lia|vm_compute; discriminate]. }
  assert (A : derivatives (int_num true I32) 2 (map (mk_int I32) [1; 5; 0; 0]%Z) (map (mk_int I32) [6; 10]%Z) /\
              derivatives (int_num true I32) 3 (map (mk_int I32) [1; 5; 0; 0]%Z) (map (mk_int I32) [6]%Z)).
  { split.
    - apply (derivatives_more _ _ _ (map (mk_int I32) [3; 10; 0]%Z)); [apply V; cbn; lia|apply same_list; vm_compute; reflexivity|].
      apply (derivatives_more _ _ _ (map (mk_int I32) [6; 10]%Z)); [apply V; cbn; lia|apply same_list; vm_compute; reflexivity|]. constructor.
    - apply (derivatives_more _ _ _ (map (mk_int I32) [3; 10; 0]%Z)); [apply V; cbn; lia|apply same_list; vm_compute; reflexivity|].
      apply (derivatives_more _ _ _ (map (mk_int I32) [6; 10]%Z)); [apply V; cbn; lia|apply same_list; vm_compute; reflexivity|].
      apply (derivatives_more _ _ _ (map (mk_int I32) [6]%Z)); [apply V; cbn; lia|apply same_list; vm_compute; reflexivity|]. constructor. }
  intros O z. split; [vm_compute; reflexivity|]. split; [exact (proj1 A)|]. split; [exact (proj2 A)|].
  split; [unfold swf; cbn; repeat constructor; cbn; lia|]. split; [vm_compute; reflexivity|].
  apply (sderivatives_more _ _ _ [(1%N, mk_int I32 10%Z)]); [apply same_map; vm_compute; reflexivity|].
  apply (sderivatives_more _ _ _ [(0%N, mk_int I32 10%Z)]); [apply same_map; vm_compute; reflexivity|]. constructor.
Qed.

(** In a release build the degree can fall faster: the derivative of 128x^2 over u8 is zero. *)
Example C114_wrapping_case : let W := int_num false U8 in let y := mk_int U8 in
  derivatives W 1 (map y [128; 0; 0]%Z) (map y [0; 0]%Z) /\ dense_degree W (map y [128; 0; 0]%Z) = Num 2 /\ dense_degree W (map y [0; 0]%Z) = NegInf.
Proof.
  intros W y. split; [|split; vm_compute; reflexivity].
  apply (derivatives_more _ _ _ (map (mk_int U8) [0; 0]%Z)); [unfold vec_ok, len; vm_compute; discriminate|apply same_list; vm_compute; reflexivity|]. constructor.
Qed.

Print Assumptions C114_coefficients.
Print Assumptions C114_int.
Print Assumptions C114_int_wrapping.
