(** Property C112: repeated division by x - a gives the Taylor expansion at a. *)

From Coq Require Import List NArith ZArith Lia Bool Arith Factorial.
From Coq Require Import ZifyBool ZifyNat ZifyN.
From Verif Require Import Base Num Spec SpecFacts Laws Terms Dense Sparse Wrap.
From Verif Require Import DenseFacts DenseArith DenseMul DenseCalc DenseDiv SparseFacts SparseArith SparseCalc.
From Verif Require Import P_Dense1 P_Dense2 SpecDegree P_Degree Expr P_Expr P_Modular P_RepeatedRoots P_Newton.
Import ListNotations.
Local Open Scope nat_scope.

(** ** Specification *)

(** The caller divides p by d, then the quotient by d, and so on: the remainders, and the last quotient. *)
Inductive divisions {T} (O : num T) (fuel : nat) (d : list T) : list T -> list (list T) -> list T -> Prop :=
| divisions_none p : divisions O fuel d p [] p
| divisions_more p q r rs g : vec_ok O p -> dense_div_mod O fuel p d = Ok (q, r) -> divisions O fuel d q rs g ->
    divisions O fuel d p (r :: rs) g.

(** The caller takes the derivative n times. *)
Inductive derivatives {T} (O : num T) : nat -> list T -> list T -> Prop :=
| derivatives_none p : derivatives O 0 p p
| derivatives_more n p p1 p' : vec_ok O p -> dense_derivative O p = Ok p1 -> derivatives O n p1 p' -> derivatives O (S n) p p'.

(** c_0 + c_1 (x - a) + ... + c_(k-1) (x - a)^(k-1) *)
Definition powers_of {R : comring} (a : car R) (c : nat -> car R) (k : nat) : poly R :=
  fun d => sumn (fun i => rmul (c i) (ppow (x_minus a) i d)) k.

(** ** Lemmas *)
Section Taylor.
Context {R : comring}.
Add Ring R_ring6 : (r_theory R).
Add Ring P_ring6 : (@poly_ring R) (setoid (@peq_equiv R) (@poly_ring_ext R)).
Implicit Types p q : poly R.

Fixpoint nderiv (n : nat) p : poly R := match n with 0 => p | S n => nderiv n (pderiv p) end.

Lemma nderiv_ext n : forall p q, peq p q -> peq (nderiv n p) (nderiv n q).
Proof. induction n as [|n IH]; intros p q H; [exact H|]. apply IH, (pderiv_ext R), H. Qed.
Lemma nderiv_pfin n : forall p, pfin p -> pfin (nderiv n p).
Proof. induction n as [|n IH]; intros p H; [exact H|]. apply IH, pfin_deriv, H. Qed.
Lemma pderiv_add p q : peq (pderiv (padd p q)) (padd (pderiv p) (pderiv q)).
Proof. intros d. unfold pderiv, padd. ring. Qed.
Lemma nderiv_add n : forall p q, peq (nderiv n (padd p q)) (padd (nderiv n p) (nderiv n q)).
Proof.
  induction n as [|n IH]; intros p q; [apply peq_refl|]. cbn [nderiv]. eapply peq_trans; [apply nderiv_ext, pderiv_add|]. apply IH.
Qed.

(** D^(n+1) ((x - a) q) = (x - a) D^(n+1) q + (n + 1) D^n q. *)
Lemma nderiv_lin n : forall q a, peq (nderiv (S n) (pmul q (plin a)))
  (padd (pmul (nderiv (S n) q) (plin a)) (pscale (nderiv n q) (of_nat (S n)))).
Proof.
  induction n as [|n IH]; intros q a; change (nderiv (S ?n) ?x) with (nderiv n (pderiv x));
    assert (D : peq (pderiv (pmul q (plin a))) (padd (pmul (pderiv q) (plin a)) q)) by
      (eapply peq_trans; [apply pderiv_pmul|]; apply padd_ext; [apply peq_refl|];
       eapply peq_trans; [apply pmul_ext; [apply peq_refl|apply pderiv_lin]|ring]).
  - eapply peq_trans; [apply nderiv_ext, D|]. cbn [nderiv]. apply padd_ext; [apply peq_refl|]. intros d. unfold pscale. cbn [of_nat]. ring.
  - eapply peq_trans; [apply nderiv_ext, D|]. eapply peq_trans; [apply nderiv_add|].
    eapply peq_trans; [apply padd_ext; [apply IH|apply peq_refl]|]. change (nderiv (S n) (pderiv q)) with (nderiv n (pderiv (pderiv q))).
    change (nderiv (S n) q) with (nderiv n (pderiv q)). intros d. unfold padd, pscale. cbn [of_nat]. ring.
Qed.

Lemma nderiv_const n p : (forall i, 1 <= i -> p i = r0) -> peq (nderiv (S n) p) pzero.
Proof.
  intros H. assert (Z : forall m, peq (nderiv m (@pzero R)) pzero).
  { induction m as [|m IH]; [apply peq_refl|]. cbn [nderiv]. eapply peq_trans; [|exact IH]. apply nderiv_ext. intros d. unfold pderiv, pzero. ring. }
  cbn [nderiv]. eapply peq_trans; [|apply (Z n)]. apply nderiv_ext. intros d. unfold pderiv, pzero. rewrite H by lia. ring.
Qed.

(** One division: the derivatives at a of p are those of the quotient. *)
Lemma nderiv_step n p q (r : poly R) a w : peq p (padd (pmul q (plin a)) r) -> (forall i, 1 <= i -> r i = r0) -> pfin q ->
  is_value (nderiv n q) a w -> is_value (nderiv (S n) p) a (rmul (of_nat (S n)) w).
Proof.
  intros E Hr Hq Hw. eapply is_value_ext; [apply peq_sym; eapply peq_trans; [apply nderiv_ext, E|apply nderiv_add]|].
  destruct (pfin_value (nderiv (S n) q) a (nderiv_pfin _ _ Hq)) as [u Hu].
  replace (rmul (of_nat (S n)) w) with (radd (radd (rmul u (rsub a a)) (rmul w (of_nat (S n)))) r0) by ring.
  apply is_value_padd; [|apply is_value_zero, nderiv_const, Hr].
  eapply is_value_ext; [apply peq_sym, nderiv_lin|]. apply is_value_padd; [|apply is_value_pscale, Hw].
  apply is_value_pmul; [exact Hu|apply is_value_plin].
Qed.

Lemma pone_l p i : pmul pone p i = p i.
Proof. assert (H : peq (pmul pone p) p) by ring. apply H. Qed.
Lemma radd_swap (x y : car R) : radd x y = radd y x.
Proof. ring. Qed.
Lemma rmul_swap (x y : car R) : rmul x y = rmul y x.
Proof. ring. Qed.
Lemma padd_zero_right p q : peq q pzero -> peq (padd p q) p.
Proof. intros H d. unfold padd. rewrite (H d). unfold pzero. ring. Qed.
Lemma pzero_right p : peq (pmul p pzero) pzero.
Proof. ring. Qed.
Lemma of_nat_add m n : @of_nat R (m + n) = radd (of_nat m) (of_nat n).
Proof. induction m as [|m IH]; cbn [of_nat Nat.add]; [ring|rewrite IH; ring]. Qed.
Lemma of_nat_mul m n : @of_nat R (m * n) = rmul (of_nat m) (of_nat n).
Proof. induction m as [|m IH]; cbn [of_nat Nat.mul]; [ring|rewrite of_nat_add, IH; ring]. Qed.

(** Multiplying by x - a moves every power up by one. *)
Lemma powers_up (a : car R) (c : nat -> car R) k (g : poly R) : peq (padd (pmono (c 0) 0) (pmul (padd (powers_of a (fun i => c (S i)) k) (pmul (ppow (x_minus a) k) g)) (plin a)))
  (padd (powers_of a c (S k)) (pmul (ppow (x_minus a) (S k)) g)).
Proof.
  assert (X : peq (plin a) (x_minus a)) by apply peq_sym, be_plin.
  assert (S1 : peq (pmul (powers_of a (fun i => c (S i)) k) (plin a)) (fun d => sumn (fun i => rmul (c (S i)) (ppow (x_minus a) (S i) d)) k)).
  { induction k as [|k IH].
    - intros d. rewrite pmul_plin. unfold powers_of. cbn [sumn]. destruct d; ring.
    - apply (peq_trans _ (padd (pmul (powers_of a (fun i => c (S i)) k) (plin a)) (pmul (pscale (ppow (x_minus a) k) (c (S k))) (plin a)))).
      + intros d. unfold padd. rewrite !pmul_plin. unfold powers_of, pscale. cbn [sumn]. destruct d; ring.
      + intros d. unfold padd. rewrite (IH d). cbn [sumn]. f_equal.
        transitivity (rmul (ppow (x_minus a) (S k) d) (c (S k))); [|ring]. cbn [ppow].
        transitivity (pscale (pmul (x_minus a) (ppow (x_minus a) k)) (c (S k)) d); [|reflexivity].
        transitivity (pmul (x_minus a) (pscale (ppow (x_minus a) k) (c (S k))) d); [|apply pmul_pscale_r].
        transitivity (pmul (plin a) (pscale (ppow (x_minus a) k) (c (S k))) d); [apply pmul_comm|apply pmul_ext; [exact X|apply peq_refl]]. }
  set (W := powers_of a (fun i => c (S i)) k) in *. set (V := ppow (x_minus a) k).
  assert (K : peq (pmul (padd W (pmul V g)) (plin a)) (padd (pmul W (plin a)) (pmul (pmul (plin a) V) g))) by (generalize W V g (plin a); intros; ring).
  eapply peq_trans; [apply padd_ext; [apply peq_refl|exact K]|].
  eapply peq_trans; [apply padd_ext; [apply peq_refl|apply padd_ext; [exact S1|apply pmul_ext; [apply pmul_ext; [exact X|apply peq_refl]|apply peq_refl]]]|].
  unfold V. clear K. change (pmul (x_minus a) (ppow (x_minus a) k)) with (ppow (x_minus a) (S k)). set (Y := pmul (ppow (x_minus a) (S k)) g).
  intros d. unfold padd, powers_of. rewrite (sumn_S_l (fun i => rmul (c i) (ppow (x_minus a) i d)) k).
  cbn [ppow]. replace (pmono (c 0) 0 d) with (rmul (c 0) (@pone R d)); [ring|]. destruct d; cbn; ring.
Qed.

(** The quotient has one coefficient less. *)
Lemma quotient_bound n p q (r : poly R) a : peq p (padd (pmul q (plin a)) r) -> (forall i, 1 <= i -> r i = r0) -> pfin q ->
  (forall i, n <= i -> p i = r0) -> forall i, n - 1 <= i -> q i = r0.
Proof.
  intros E Hr [m Hm] Hp. assert (G : forall k d, n - 1 <= d -> m <= d + k -> q d = r0).
  { induction k as [|k IH]; intros d Hd Hk; [apply Hm; lia|]. specialize (E (S d)). unfold padd in E. rewrite pmul_plin in E.
    rewrite (Hp (S d)), (Hr (S d)), (IH (S d)) in E by lia. rewrite E. ring. }
  intros i Hi. apply (G m); lia.
Qed.
End Taylor.

(** What a chain of divisions says. *)
Section Chain.
Context {T} (O : num T) (R : comring) (den : T -> car R) (L : lawful O R den) (HN : nice_div O) (H10 : r1 <> @r0 R).
Variables (fuel : nat) (d : list T) (a : car R).
Hypothesis Hd : peq (dcoef R den d) (x_minus a).
Add Ring R_ring7 : (r_theory R).

Lemma division_step p q r : vec_ok O p -> dense_div_mod O fuel p d = Ok (q, r) ->
  is_value (dcoef R den p) a (dcoef R den r 0) /\ (forall i, 1 <= i -> dcoef R den r i = r0) /\
  peq (dcoef R den p) (padd (pmul (dcoef R den q) (plin a)) (dcoef R den r)).
Proof.
  intros Hp H. pose proof (C18_dense_div_mod T O R den L HN fuel p d q r Hp H) as E. assert (X : peq (dcoef R den d) (plin a)) by (eapply peq_trans; [exact Hd|apply be_plin]).
  destruct (remainder_value _ a _ _ _ H10 X E (dcoef_pfin R den q)) as (V & Z & _). split; [exact V|]. split; [exact Z|].
  destruct E as [E _]. eapply peq_trans; [exact E|]. apply padd_ext; [apply pmul_ext; [apply peq_refl|exact X]|apply peq_refl].
Qed.

Lemma chain_const p rs g : divisions O fuel d p rs g -> Forall (fun r => forall i, 1 <= i -> dcoef R den r i = r0) rs.
Proof.
  induction 1 as [p|p q r rs g Hp H _ IH]; constructor; [|exact IH]. apply (division_step p q r Hp H).
Qed.

Lemma chain_expand p rs g : divisions O fuel d p rs g ->
  peq (dcoef R den p) (padd (powers_of a (fun i => dcoef R den (nth i rs []) 0) (length rs)) (pmul (ppow (x_minus a) (length rs)) (dcoef R den g))).
Proof.
  induction 1 as [p|p q r rs g Hp H _ IH].
  - cbn [length ppow]. intros i. unfold padd, powers_of. cbn [sumn]. transitivity (pmul pone (dcoef R den p) i); [symmetry; apply pone_l|ring].
  - destruct (division_step p q r Hp H) as (_ & Z & E). cbn [length].
    eapply peq_trans; [|apply (powers_up a (fun i => dcoef R den (nth i (r :: rs) []) 0) (length rs) (dcoef R den g))].
    eapply peq_trans; [exact E|]. intros i. unfold padd at 1. rewrite radd_swap. unfold padd at 1. f_equal.
    + unfold pmono. cbn [nth]. destruct i; [reflexivity|apply Z; lia].
    + apply pmul_ext; [exact IH|apply peq_refl].
Qed.

Lemma chain_slope p rs g : divisions O fuel d p rs g -> forall k, k < length rs ->
  is_value (nderiv k (dcoef R den p)) a (rmul (of_nat (fact k)) (dcoef R den (nth k rs []) 0)).
Proof.
  induction 1 as [p|p q r rs g Hp H _ IH]; intros k Hk; [cbn in Hk; lia|]. destruct (division_step p q r Hp H) as (V & Z & E).
  destruct k as [|k]; cbn [nth].
  - cbn [nderiv fact of_nat]. replace (rmul (radd r1 r0) (dcoef R den r 0)) with (dcoef R den r 0) by ring. exact V.
  - cbn [length] in Hk. specialize (IH k ltac:(lia)). pose proof (nderiv_step k _ _ _ a _ E Z (dcoef_pfin R den q) IH) as W.
    change (fact (S k)) with (S k * fact k). rewrite of_nat_mul.
    replace (rmul (rmul (of_nat (S k)) (of_nat (fact k))) (dcoef R den (nth k rs []) 0)) with (rmul (of_nat (S k)) (rmul (of_nat (fact k)) (dcoef R den (nth k rs []) 0))) by ring. exact W.
Qed.

Lemma chain_zero p rs g : divisions O fuel d p rs g -> forall n, (forall i, n <= i -> dcoef R den p i = r0) ->
  forall i, n - length rs <= i -> dcoef R den g i = r0.
Proof.
  induction 1 as [p|p q r rs g Hp H _ IH]; intros n Hn i Hi; [apply Hn; cbn in Hi; lia|]. destruct (division_step p q r Hp H) as (_ & Z & E).
  apply (IH (n - 1)); [|cbn [length] in Hi; lia]. apply (quotient_bound n _ _ _ a E Z (dcoef_pfin R den q) Hn).
Qed.

Lemma chain_deriv n p p' : derivatives O n p p' -> peq (nderiv n (dcoef R den p)) (dcoef R den p').
Proof.
  induction 1 as [p|n p p1 p' Hp H _ IH]; [apply peq_refl|]. eapply peq_trans; [|exact IH]. cbn [nderiv]. apply nderiv_ext, peq_sym.
  apply (C13_dense_derivative T O R den L); assumption.
Qed.
End Chain.

Lemma powers_value {R : comring} (a x : car R) c k :
  is_value (powers_of a c k) x (sumn (fun i => rmul (c i) (rpow (rsub x a) i)) k).
Proof.
  induction k as [|k IH].
  - cbn [sumn]. apply is_value_zero. intros d. reflexivity.
  - cbn [sumn]. apply (is_value_ext (padd (powers_of a c k) (pscale (ppow (x_minus a) k) (c k)))).
    + intros d. unfold padd, pscale, powers_of. cbn [sumn]. f_equal. apply rmul_swap.
    + apply is_value_padd; [exact IH|]. rewrite rmul_swap. apply is_value_pscale, is_value_ppow. eapply is_value_ext; [apply peq_sym, be_plin|apply is_value_plin].
Qed.

(** ** C112 *)

(** The remainders are constants c_0, c_1, ..., and p is c_0 + c_1 (x - a) + ... plus a multiple of (x - a)^k, for k divisions;
    the values agree with it at every point, and with more divisions than the degree nothing is left. *)
Theorem C112_expansion : forall T (O : num T) R den, lawful O R den -> nice_div O -> r1 <> @r0 R ->
  forall fuel d a p rs g, peq (dcoef R den d) (x_minus (den a)) -> divisions O fuel d p rs g ->
  let c i := dcoef R den (nth i rs []) 0 in let k := length rs in
  (forall i e, 1 <= e -> dcoef R den (nth i rs []) e = r0) /\
  peq (dcoef R den p) (padd (powers_of (den a) c k) (pmul (ppow (x_minus (den a)) k) (dcoef R den g))) /\
  (forall x y z, dense_eval O p x = Ok y -> dense_eval O g x = Ok z ->
     den y = radd (sumn (fun i => rmul (c i) (rpow (rsub (den x) (den a)) i)) k) (rmul (rpow (rsub (den x) (den a)) k) (den z))) /\
  (match dense_degree O p with Num n => (n < N.of_nat k)%N | NegInf => True end ->
     dense_is_zero O g = true /\ peq (dcoef R den p) (powers_of (den a) c k)).
Proof.
  intros T O R den L HN H10 fuel d a p rs g Hd H c k.
  pose proof (chain_expand O R den L HN H10 fuel d (den a) Hd p rs g H) as E. split; [|split; [exact E|split]].
  - intros i e He. destruct (Nat.lt_ge_cases i (length rs)) as [Hi|Hi].
    + pose proof (chain_const O R den L HN H10 fuel d (den a) Hd p rs g H) as F. rewrite Forall_forall in F. apply (F (nth i rs []) (nth_In rs [] Hi) e He).
    + rewrite nth_overflow by exact Hi. apply dcoef_nil.
  - intros x y z Hy Hz. apply (is_value_fun (dcoef R den p) (den x)); [apply (C12_dense_eval T O R den L), Hy|].
    eapply is_value_ext; [apply peq_sym, E|]. apply is_value_padd; [apply powers_value|]. apply is_value_pmul; [|apply (C12_dense_eval T O R den L), Hz].
    apply is_value_ppow. eapply is_value_ext; [apply peq_sym, be_plin|apply is_value_plin].
  - intros Hk. pose proof (C02_dense_degree T O R den L p) as D.
    assert (B : forall i, k <= i -> dcoef R den p i = r0).
    { intros i Hi. destruct (dense_degree O p) as [|n]; cbn in D; [apply D|]. apply D. lia. }
    assert (Z : peq (dcoef R den g) pzero) by (intros i; apply (chain_zero O R den L HN H10 fuel d (den a) Hd p rs g H k B); fold k; lia).
    split; [apply (C02_dense_is_zero T O R den L), Z|]. eapply peq_trans; [exact E|]. apply padd_zero_right.
    eapply peq_trans; [apply pmul_ext; [apply peq_refl|exact Z]|]. apply pzero_right.
Qed.

(** The k-th derivative at a, as computed by derivative and eval, is k! times the k-th remainder. *)
Theorem C112_slope : forall T (O : num T) R den, lawful O R den -> nice_div O -> r1 <> @r0 R ->
  forall fuel d a p rs g k p' v, peq (dcoef R den d) (x_minus (den a)) -> divisions O fuel d p rs g -> k < length rs ->
  derivatives O k p p' -> dense_eval O p' a = Ok v -> den v = rmul (of_nat (fact k)) (dcoef R den (nth k rs []) 0).
Proof.
  intros T O R den L HN H10 fuel d a p rs g k p' v Hd H Hk HD Hv.
  apply (is_value_fun (dcoef R den p') (den a)); [apply (C12_dense_eval T O R den L), Hv|].
  eapply is_value_ext; [apply (chain_deriv O R den L k p p' HD)|]. apply (chain_slope O R den L HN H10 fuel d (den a) Hd p rs g H k Hk).
Qed.

Lemma of_nat_Z n : @of_nat Z_ring n = Z.of_nat n.
Proof. induction n as [|n IH]; [reflexivity|]. cbn [of_nat]. rewrite IH, Nat2Z.inj_succ. change (1 + Z.of_nat n = Z.succ (Z.of_nat n))%Z. lia. Qed.

(** Every integer type, in a debug build. *)
Theorem C112_int : forall t fuel d (a : int t) p rs g, peq (dcoef Z_ring ival d) (@x_minus Z_ring (ival a)) -> divisions (int_num true t) fuel d p rs g ->
  let c i := dcoef Z_ring ival (nth i rs []) 0 in
  (forall k p' v, k < length rs -> derivatives (int_num true t) k p p' -> dense_eval (int_num true t) p' a = Ok v ->
     ival v = (Z.of_nat (fact k) * c k)%Z) /\
  (forall x y, match dense_degree (int_num true t) p with Num n => (n < N.of_nat (length rs))%N | NegInf => True end ->
     dense_eval (int_num true t) p x = Ok y -> ival y = @sumn Z_ring (fun i => (c i * (ival x - ival a) ^ Z.of_nat i)%Z) (length rs)).
Proof.
  intros t fuel d a p rs g Hd H c. assert (HN : nice_div (int_num true t)) by apply trunc_nice, int_trunc_div.
  assert (H10 : @r1 Z_ring <> r0) by discriminate. split.
  - intros k p' v Hk HD Hv. pose proof (C112_slope (int t) _ Z_ring ival (checked_lawful t) HN H10 fuel d a p rs g k p' v Hd H Hk HD Hv) as E.
    rewrite of_nat_Z in E. exact E.
  - intros x y Hk Hy. destruct (C112_expansion (int t) _ Z_ring ival (checked_lawful t) HN H10 fuel d a p rs g Hd H) as (_ & _ & _ & F).
    destruct (F Hk) as [_ E]. apply (@is_value_fun Z_ring (dcoef Z_ring ival p) (ival x)); [apply (C12_dense_eval _ _ _ _ (checked_lawful t)), Hy|].
    eapply is_value_ext; [apply peq_sym, E|]. pose proof (@powers_value Z_ring (ival a) (ival x) c (length rs)) as V.
    replace (@sumn Z_ring (fun i => (c i * (ival x - ival a) ^ Z.of_nat i)%Z) (length rs)) with (@sumn Z_ring (fun i => @rmul Z_ring (c i) (@rpow Z_ring (ival x - ival a)%Z i)) (length rs)); [exact V|].
    apply sumn_ext. intros i Hi. cbn. f_equal. clear. induction i as [|i IH]; [reflexivity|]. cbn [rpow]. rewrite IH, Nat2Z.inj_succ, Z.pow_succ_r by lia. reflexivity.
Qed.

Lemma of_nat_w t n : exists j, (ival (@of_nat (w_ring t) n) = Z.of_nat n + 2 ^ bits t * j)%Z.
Proof.
  induction n as [|n [j IH]].
  - cbn [of_nat]. change (@r0 (w_ring t)) with (mk_int t 0). destruct (wrap_mod t 0) as [j Hj]. exists j. exact Hj.
  - cbn [of_nat]. change (@radd (w_ring t)) with (@w_add t). change (@r1 (w_ring t)) with (mk_int t 1). unfold w_add. cbn [ival mk_int]. rewrite IH.
    destruct (wrap_mod t 1) as [j1 ->]. match goal with |- context [wrap t ?e] => destruct (wrap_mod t e) as [j2 ->] end.
    exists (j1 + j + j2)%Z. rewrite Nat2Z.inj_succ. ring.
Qed.

(** In a release build, whatever wraps around: the same modulo 2^bits. *)
Theorem C112_int_wrapping : forall t fuel d (a : int t) p rs g k p' v,
  peq (@dcoef _ (w_ring t) (fun x => x) d) (@x_minus (w_ring t) a) -> divisions (int_num false t) fuel d p rs g -> k < length rs ->
  derivatives (int_num false t) k p p' -> dense_eval (int_num false t) p' a = Ok v ->
  (2 ^ bits t | ival v - Z.of_nat (fact k) * ival (@dcoef _ (w_ring t) (fun x => x) (nth k rs []) 0%nat))%Z.
Proof.
  intros t fuel d a p rs g k p' v Hd H Hk HD Hv. assert (HN : nice_div (int_num false t)) by apply trunc_nice, int_trunc_div.
  assert (H10 : @r1 (w_ring t) <> r0) by (intros E; apply (f_equal ival) in E; destruct t; vm_compute in E; discriminate).
  pose proof (C112_slope (int t) _ (w_ring t) (fun x => x) (wrapping_lawful t) HN H10 fuel d a p rs g k p' v Hd H Hk HD Hv) as E. cbn beta in E.
  destruct (of_nat_w t (fact k)) as [j Hj]. set (c := @dcoef _ (w_ring t) (fun x => x) (nth k rs []) 0) in *.
  assert (Ev : ival v = wrap t (ival (@of_nat (w_ring t) (fact k)) * ival c)) by (rewrite E; reflexivity).
  rewrite Hj in Ev. rewrite Ev. destruct (wrap_mod t ((Z.of_nat (fact k) + 2 ^ bits t * j) * ival c)) as [j2 ->].
  generalize (ival c) (Z.of_nat (fact k)). intros x f. exists (j * x + j2)%Z. ring.
Qed.

(** x^3 = 8 + 12 (x - 2) + 6 (x - 2)^2 + (x - 2)^3, and the second derivative 6x is 12 = 2! * 6 at 2. *)
Example C112_case : let O := int_num true I32 in let z := mk_int I32 in let zs := map z in
  peq (dcoef Z_ring ival (zs [1; -2]%Z)) (@x_minus Z_ring (ival (z 2%Z))) /\
  divisions O 9 (zs [1; -2]%Z) (zs [1; 0; 0; 0]%Z) [zs [8]%Z; zs [12]%Z; zs [6]%Z; zs [1]%Z] [] /\
  derivatives O 2 (zs [1; 0; 0; 0]%Z) (zs [6; 0]%Z) /\ rmap ival (dense_eval O (zs [6; 0]%Z) (z 2%Z)) = Ok (2 * 6)%Z.
Proof.
  assert (V : forall l : list (int I32), length l < 9 -> vec_ok (int_num true I32) l).
  { intros l Hl. unfold vec_ok, len. apply N.le_trans with 9%N; [lia|vm_compute; discriminate]. }
  split; [intros [|[|[|i]]]; reflexivity|]. split; [|split].
  - apply (divisions_more _ _ _ _ (map (mk_int I32) [1; 2; 4]%Z)); [apply V; cbn; lia|vm_compute; repeat f_equal; apply int_eq; reflexivity|].
    apply (divisions_more _ _ _ _ (map (mk_int I32) [1; 4]%Z)); [apply V; cbn; lia|vm_compute; repeat f_equal; apply int_eq; reflexivity|].
    apply (divisions_more _ _ _ _ (map (mk_int I32) [1]%Z)); [apply V; cbn; lia|vm_compute; repeat f_equal; apply int_eq; reflexivity|].
    apply (divisions_more _ _ _ _ []); [apply V; cbn; lia|vm_compute; repeat f_equal; apply int_eq; reflexivity|]. constructor.
  - apply (derivatives_more _ _ _ (map (mk_int I32) [3; 0; 0]%Z)); [apply V; cbn; lia|vm_compute; repeat f_equal; apply int_eq; reflexivity|].
    apply (derivatives_more _ _ _ (map (mk_int I32) [6; 0]%Z)); [apply V; cbn; lia|vm_compute; repeat f_equal; apply int_eq; reflexivity|]. constructor.
  - vm_compute. reflexivity.
Qed.

Lemma map_ival_inj t : forall l l' : list (int t), map ival l = map ival l' -> l = l'.
Proof.
  induction l as [|x l IH]; intros [|y l'] H; try discriminate; [reflexivity|]. injection H as H1 H2. f_equal; [apply int_eq, H1|apply IH, H2].
Qed.
Lemma same_pair t (x : res (list (int t) * list (int t))) q r :
  rmap (fun s => (map ival (fst s), map ival (snd s))) x = Ok (map ival q, map ival r) -> x = Ok (q, r).
Proof. destruct x as [[q' r']| |]; try discriminate. cbn. intros H. injection H as H1 H2. f_equal. f_equal; apply map_ival_inj; assumption. Qed.
Lemma same_list t (x : res (list (int t))) q : rmap (map ival) x = Ok (map ival q) -> x = Ok q.
Proof. destruct x as [q'| |]; try discriminate. cbn. intros H. injection H as H. f_equal. apply map_ival_inj, H. Qed.

(** Over u8 in a release build, x - 20 is [1, 236]; the coefficients of x^3 at 20 are 8000, 1200, 60, 1 modulo 256. *)
Example C112_wrapping_case : let O := int_num false U8 in let z := mk_int U8 in let zs := map z in
  peq (@dcoef _ (w_ring U8) (fun x => x) (zs [1; 236]%Z)) (@x_minus (w_ring U8) (z 20%Z)) /\
  divisions O 9 (zs [1; 236]%Z) (zs [1; 0; 0; 0]%Z) [zs [64]%Z; zs [176]%Z; zs [60]%Z; zs [1]%Z] [] /\
  derivatives O 1 (zs [1; 0; 0; 0]%Z) (zs [3; 0; 0]%Z) /\ rmap ival (dense_eval O (zs [3; 0; 0]%Z) (z 20%Z)) = Ok 176%Z.
Proof.
  assert (V : forall l : list (int U8), length l < 9 -> vec_ok (int_num false U8) l).
  { intros l Hl. unfold vec_ok, len. apply N.le_trans with 9%N; [lia|vm_compute; discriminate]. }
  split; [intros [|[|[|i]]]; apply int_eq; reflexivity|]. split; [|split].
  - apply (divisions_more _ _ _ _ (map (mk_int U8) [1; 20; 144]%Z)); [apply V; cbn; lia|apply same_pair; vm_compute; reflexivity|].
    apply (divisions_more _ _ _ _ (map (mk_int U8) [1; 40]%Z)); [apply V; cbn; lia|apply same_pair; vm_compute; reflexivity|].
    apply (divisions_more _ _ _ _ (map (mk_int U8) [1]%Z)); [apply V; cbn; lia|apply same_pair; vm_compute; reflexivity|].
    apply (divisions_more _ _ _ _ []); [apply V; cbn; lia|apply same_pair; vm_compute; reflexivity|]. constructor.
  - apply (derivatives_more _ _ _ (map (mk_int U8) [3; 0; 0]%Z)); [apply V; cbn; lia|apply same_list; vm_compute; reflexivity|]. constructor.
  - vm_compute. reflexivity.
Qed.

Print Assumptions C112_expansion.
Print Assumptions C112_slope.
Print Assumptions C112_int.
Print Assumptions C112_int_wrapping.
