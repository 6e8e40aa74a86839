(** C105 (repeated roots and the derivative) and C106 (congruent points have congruent values). *)

From Coq Require Import List NArith ZArith Lia Bool Arith.
From Coq Require Import ZifyBool ZifyNat ZifyN.
From Verif Require Import Base Num Spec SpecFacts Laws Terms Dense Sparse Wrap.
From Verif Require Import DenseFacts DenseArith DenseMul DenseCalc DenseDiv SparseFacts SparseArith SparseCalc.
From Verif Require Import P_Dense1 P_Dense2 P_Sparse1 P_Sparse2 SpecDegree P_Degree Expr P_Expr P_Modular.
Import ListNotations.
Local Open Scope nat_scope.

(** ** Lemmas *)

Section Poly.
Context {R : comring}.
Add Ring R_ring2 : (r_theory R).
Add Ring P_ring2 : (@poly_ring R) (setoid (@peq_equiv R) (@poly_ring_ext R)).
Notation "0" := (@r0 R). Notation "1" := (@r1 R).
Infix "+" := (@radd R). Infix "*" := (@rmul R). Infix "-" := (@rsub R).
Notation "a ≡ b" := (@peq R a b) (at level 70).
Implicit Types p q m : poly R.

Lemma pfin_value p x : pfin p -> exists v, is_value p x v.
Proof. intros [n Hn]. eexists. exists n. split; [exact Hn|reflexivity]. Qed.
Lemma value_pfin p x v : is_value p x v -> pfin p.
Proof. intros (n & Hn & _). exists n. exact Hn. Qed.
Lemma pfin_deriv p : pfin p -> pfin (pderiv p).
Proof. intros [n Hn]. exists n. intros i Hi. unfold pderiv. rewrite Hn by lia. ring. Qed.
Lemma pfin_lin a : pfin (@plin R a).
Proof. exists 2. intros [|[|i]] Hi; try lia. reflexivity. Qed.
Lemma pderiv_lin a : pderiv (@plin R a) ≡ pone.
Proof. intros [|d]; unfold pderiv, plin, pone, pmono; cbn [of_nat Nat.eqb]; ring. Qed.

(** The derivative at a is the value at a of the quotient by x - a. *)
Lemma deriv_value p q a v w : p ≡ padd (pmul q (plin a)) (pmono v 0) -> is_value q a w -> is_value (pderiv p) a w.
Proof.
  intros E Hw. destruct (pfin_value (pderiv q) a (pfin_deriv q (value_pfin q a w Hw))) as [u Hu].
  apply (is_value_ext (padd (pmul (pderiv q) (plin a)) q)).
  - assert (K : pderiv (padd (pmul q (plin a)) (pmono v 0)) ≡ pderiv (pmul q (plin a))).
    { intros d. unfold pderiv, padd, pmono. cbn [Nat.eqb]. ring. }
    assert (L : pmul q (pderiv (plin a)) ≡ q) by (eapply peq_trans; [apply pmul_ext; [apply peq_refl|apply pderiv_lin]|ring]).
    apply peq_sym. eapply peq_trans; [apply (pderiv_ext R), E|]. eapply peq_trans; [exact K|]. eapply peq_trans; [apply pderiv_pmul|].
    apply padd_ext; [apply peq_refl|exact L].
  - replace w with (u * (a - a) + w) by ring. apply is_value_padd; [|exact Hw]. apply is_value_pmul; [exact Hu|apply is_value_plin].
Qed.

(** x - a can be cancelled. *)
Lemma lin_cancel q a : pfin q -> pmul q (plin a) ≡ pzero -> q ≡ pzero.
Proof.
  intros [n Hn] H. assert (G : forall k d, (n <= d + k)%nat -> q d = 0).
  { induction k as [|k IH]; intros d Hd; [apply Hn; lia|]. specialize (H (S d)). rewrite pmul_plin in H. rewrite (IH (S d)) in H by lia.
    unfold pzero in H. transitivity (q d - 0 * a); [ring|exact H]. }
  intros d. apply (G n). lia.
Qed.
Lemma lin_pow_cancel n : forall q a, pfin q -> pmul q (ppow (plin a) n) ≡ pzero -> q ≡ pzero.
Proof.
  induction n as [|n IH]; intros q a Hq H; cbn [ppow] in H.
  - eapply peq_trans; [|exact H]. ring.
  - apply (lin_cancel q a Hq). apply (IH _ a); [apply pfin_mul; [exact Hq|apply pfin_lin]|]. eapply peq_trans; [|exact H]. ring.
Qed.

(** A factor (x - a)^(n+1) leaves (x - a)^n in the derivative. *)
Lemma deriv_multiple p m a n : p ≡ pmul (ppow (plin a) (S n)) m ->
  pderiv p ≡ pmul (ppow (plin a) n) (padd (pscale m (of_nat (S n))) (pmul (plin a) (pderiv m))).
Proof.
  intros E. eapply peq_trans; [apply (pderiv_ext R), E|]. eapply peq_trans; [apply pderiv_pmul|].
  assert (G : pmul (pderiv (ppow (plin a) (S n))) m ≡ pmul (ppow (plin a) n) (pscale m (of_nat (S n)))).
  { eapply peq_trans; [apply pmul_ext; [apply pderiv_ppow|apply peq_refl]|].
    eapply peq_trans; [apply pmul_ext; [apply pmul_ext; [apply peq_refl|apply pderiv_lin]|apply peq_refl]|].
    eapply peq_trans; [|apply peq_sym, pmul_pscale_r].
    eapply peq_trans; [|apply pscale_ext; apply pmul_comm]. eapply peq_trans; [|apply pmul_pscale_r]. ring. }
  eapply peq_trans; [apply padd_ext; [exact G|apply peq_refl]|]. cbn [ppow]. ring.
Qed.

(** Differences of values. *)
Lemma value_difference p a b u v : is_value p a u -> is_value p b v -> exists k, u - v = (a - b) * k.
Proof.
  intros Hu Hv. destruct (value_pfin p b v Hv) as [n Hn]. destruct (deflate n p b Hn) as (q & w & E & V & B).
  assert (w = v) as -> by (apply (is_value_fun p b); assumption).
  destruct (pfin_value q a) as [k Hk]; [eexists; exact B|]. exists k.
  assert (K : u = k * (a - b) + v * rpow a 0).
  { apply (is_value_fun p a); [exact Hu|]. eapply is_value_ext; [apply peq_sym, E|]. apply is_value_padd; [|apply is_value_pmono].
    apply is_value_pmul; [exact Hk|apply is_value_plin]. }
  rewrite K. cbn [rpow]. ring.
Qed.
End Poly.

(** x - a *)
Definition x_minus {R : comring} (a : car R) : poly R := be_coef [r1; ropp a].

Section Repeated.
Context {R : comring}.
Add Ring R_ring3 : (r_theory R).
Add Ring P_ring3 : (@poly_ring R) (setoid (@peq_equiv R) (@poly_ring_ext R)).
Implicit Types p q m : poly R.

(** A value and a slope of zero mean that (x - a)^2 divides. *)
Lemma repeated_iff p a v s : is_value p a v -> is_value (pderiv p) a s ->
  (v = r0 /\ s = r0) <-> exists m, pfin m /\ peq p (pmul (ppow (x_minus a) 2) m).
Proof.
  intros Hv Hs. assert (X : peq (x_minus a) (plin a)) by apply be_plin.
  assert (X2 : forall m, peq (pmul (ppow (x_minus a) 2) m) (pmul (pmul m (plin a)) (plin a))).
  { intros m. cbn [ppow]. eapply peq_trans; [apply pmul_ext; [apply pmul_ext; [exact X|apply pmul_ext; [exact X|apply peq_refl]]|apply peq_refl]|]. ring. }
  split.
  - intros [-> ->]. destruct (value_pfin p a _ Hv) as [n Hn]. destruct (deflate n p a Hn) as (q & w & E & V & B).
    assert (w = r0) as -> by (apply (is_value_fun p a); assumption).
    destruct (deflate (n - 1) q a B) as (m & w2 & E2 & V2 & B2).
    assert (w2 = r0) as -> by (apply (is_value_fun (pderiv p) a); [apply (deriv_value p q a r0 w2 E V2)|exact Hs]).
    exists m. split; [eexists; exact B2|]. apply peq_sym. eapply peq_trans; [apply X2|]. apply peq_sym.
    assert (Z : peq (pmono (@r0 R) 0) pzero) by (intros [|d]; reflexivity).
    eapply peq_trans; [exact E|]. eapply peq_trans; [apply padd_ext; [apply pmul_ext; [exact E2|apply peq_refl]|exact Z]|].
    eapply peq_trans; [apply padd_ext; [apply pmul_ext; [apply padd_ext; [apply peq_refl|exact Z]|apply peq_refl]|apply peq_refl]|]. ring.
  - intros (m & Hm & E). assert (E2 : peq p (padd (pmul (pmul m (plin a)) (plin a)) (pmono r0 0))).
    { eapply peq_trans; [exact E|]. eapply peq_trans; [apply X2|]. intros d. unfold padd, pmono. destruct (Nat.eqb d 0); ring. }
    destruct (pfin_value m a Hm) as [u Hu].
    assert (V1 : is_value (pmul m (plin a)) a r0) by (replace (@r0 R) with (rmul u (rsub a a)) by ring; apply is_value_pmul; [exact Hu|apply is_value_plin]).
    split.
    + transitivity (radd (rmul r0 (rsub a a)) (rmul r0 (rpow a 0))); [|ring]. apply (is_value_fun p a); [exact Hv|].
      eapply is_value_ext; [apply peq_sym, E2|]. apply is_value_padd; [|apply is_value_pmono]. apply is_value_pmul; [exact V1|apply is_value_plin].
    + apply (is_value_fun (pderiv p) a); [exact Hs|]. apply (deriv_value p _ a r0 r0 E2 V1).
Qed.

Lemma multiplicity_drop p m a n mv : is_value m a mv -> peq p (pmul (ppow (x_minus a) (S n)) m) ->
  (exists h, is_value h a (rmul (of_nat (S n)) mv) /\ peq (pderiv p) (pmul (ppow (x_minus a) n) h)) /\
  (rmul (of_nat (S n)) mv <> r0 -> forall g, pfin g -> ~ peq (pderiv p) (pmul (ppow (x_minus a) (S n)) g)).
Proof.
  intros Hm E. assert (X : peq (x_minus a) (plin a)) by apply be_plin.
  assert (XP : forall k, peq (ppow (x_minus a) k) (ppow (plin a) k)) by (intros k; apply ppow_ext, X).
  assert (E1 : peq p (pmul (ppow (plin a) (S n)) m)) by (eapply peq_trans; [exact E|apply pmul_ext; [apply XP|apply peq_refl]]).
  pose proof (deriv_multiple p m a n E1) as D. set (h := padd (pscale m (of_nat (S n))) (pmul (plin a) (pderiv m))) in D.
  destruct (pfin_value (pderiv m) a (pfin_deriv m (value_pfin m a mv Hm))) as [u Hu].
  assert (Hh : is_value h a (rmul (of_nat (S n)) mv)).
  { replace (rmul (of_nat (S n)) mv) with (radd (rmul mv (of_nat (S n))) (rmul (rsub a a) u)) by ring. apply is_value_padd; [apply is_value_pscale, Hm|].
    apply is_value_pmul; [apply is_value_plin|exact Hu]. }
  split.
  - exists h. split; [exact Hh|]. eapply peq_trans; [exact D|]. apply pmul_ext; [apply peq_sym, XP|apply peq_refl].
  - intros Hne g Hg Eg. apply Hne.
    assert (Z : peq (padd h (popp (pmul (plin a) g))) pzero).
    { apply (lin_pow_cancel n _ a).
      - apply pfin_add; [apply (value_pfin h a _ Hh)|apply pfin_opp, pfin_mul; [apply pfin_lin|exact Hg]].
      - assert (K : peq (pmul (ppow (plin a) n) h) (pmul (ppow (plin a) (S n)) g)).
        { eapply peq_trans; [apply peq_sym, D|]. eapply peq_trans; [exact Eg|]. apply pmul_ext; [apply XP|apply peq_refl]. }
        cbn [ppow] in K. apply (peq_trans _ (padd (pmul (ppow (plin a) n) h) (popp (pmul (pmul (plin a) (ppow (plin a) n)) g)))); [ring|].
        eapply peq_trans; [apply padd_ext; [exact K|apply peq_refl]|]. ring. }
    destruct (pfin_value g a Hg) as [w Hw].
    apply (is_value_fun (padd h (popp (pmul (plin a) g))) a); [|apply is_value_zero, Z].
    replace (rmul (of_nat (S n)) mv) with (radd (rmul (of_nat (S n)) mv) (ropp (rmul (rsub a a) w))) by ring.
    apply is_value_padd; [exact Hh|]. apply is_value_popp, is_value_pmul; [apply is_value_plin|exact Hw].
Qed.
End Repeated.

(** ** C105 *)

(** Dividing p by x - a twice: the first remainder is the value at a (C75), the second the slope there. [d] is any Polynomial
    that is x - a. *)
Theorem C105_slope : forall T (O : num T) R den, lawful O R den -> nice_div O -> r1 <> @r0 R ->
  forall fuel fuel' p d a q r q2 r2 p' s, peq (dcoef R den d) (x_minus (den a)) -> vec_ok O p -> vec_ok O q ->
  dense_div_mod O fuel p d = Ok (q, r) -> dense_div_mod O fuel' q d = Ok (q2, r2) ->
  dense_derivative O p = Ok p' -> dense_eval O p' a = Ok s ->
  dense_eq O r2 [s] = Ok true /\ forall w, dense_eval O q a = Ok w -> w = s.
Proof.
  intros T O R den L N H10 fuel fuel' p d a q r q2 r2 p' s Hd Hp Hq H1 H2 H3 H4.
  pose proof (C18_dense_div_mod T O R den L N fuel p d q r Hp H1) as E1. pose proof (C18_dense_div_mod T O R den L N fuel' q d q2 r2 Hq H2) as E2.
  assert (X : peq (dcoef R den d) (plin (den a))) by (eapply peq_trans; [exact Hd|apply be_plin]).
  destruct (remainder_value _ (den a) _ _ _ H10 X E1 (dcoef_pfin R den q)) as (V1 & Z1 & _).
  destruct (remainder_value _ (den a) _ _ _ H10 X E2 (dcoef_pfin R den q2)) as (V2 & Z2 & _).
  assert (F : peq (dcoef R den p) (padd (pmul (dcoef R den q) (plin (den a))) (pmono (dcoef R den r 0) 0))).
  { eapply peq_trans; [exact (proj1 E1)|]. apply padd_ext; [apply pmul_ext; [apply peq_refl|exact X]|]. intros [|i]; [reflexivity|]. rewrite Z1 by lia. reflexivity. }
  pose proof (deriv_value _ _ _ _ _ F V2) as S1.
  assert (S2 : is_value (pderiv (dcoef R den p)) (den a) (den s)).
  { eapply is_value_ext; [|apply (C12_dense_eval T O R den L), H4]. apply (C13_dense_derivative T O R den L); assumption. }
  pose proof (is_value_fun _ _ _ _ S1 S2) as S3. split.
  - destruct (C05_dense_eq T O R den L r2 [s]) as (b & Eb & Hb). rewrite Eb. f_equal. apply Hb. intros [|i]; [exact S3|].
    rewrite Z2 by lia. symmetry. apply dcoef_overflow. cbn. lia.
  - intros w Hw. apply (lw_inj _ _ _ L). rewrite <- S3. apply (is_value_fun (dcoef R den q) (den a)); [apply (C12_dense_eval T O R den L), Hw|exact V2].
Qed.

(** p and its derivative both vanish at a exactly if (x - a)^2 divides p. *)
Theorem C105_repeated : forall T (O : num T) R den, lawful O R den ->
  (forall p a v p' s, vec_ok O p -> dense_eval O p a = Ok v -> dense_derivative O p = Ok p' -> dense_eval O p' a = Ok s ->
     (is_zero O v = true /\ is_zero O s = true) <-> exists m, pfin m /\ peq (dcoef R den p) (pmul (ppow (x_minus (den a)) 2) m)) /\
  (forall p a v p' s, swf p -> Forall (fun kv => (fst kv < 2 ^ 32)%N) p -> Forall (fun kv => (fst kv < 2 ^ 32)%N) p' ->
     sparse_eval O p a = Ok v -> sparse_derivative O p = Ok p' -> sparse_eval O p' a = Ok s ->
     (is_zero O v = true /\ is_zero O s = true) <-> exists m, pfin m /\ peq (scoef R den p) (pmul (ppow (x_minus (den a)) 2) m)).
Proof.
  intros T O R den L. split.
  - intros p a v p' s Hp Hv Hd Hs. rewrite !(lw_is_zero _ _ _ L). apply repeated_iff; [apply (C12_dense_eval T O R den L), Hv|].
    eapply is_value_ext; [|apply (C12_dense_eval T O R den L), Hs]. apply (C13_dense_derivative T O R den L); assumption.
  - intros p a v p' s Hp K K' Hv Hd Hs. rewrite !(lw_is_zero _ _ _ L). apply repeated_iff; [apply (C12_sparse_eval T O R den L); assumption|].
    eapply is_value_ext; [|apply (C12_sparse_eval T O R den L); [exact K'|exact Hs]]. apply (C13_sparse_derivative T O R den L p p' Hp Hd).
Qed.

(** If p = (x - a)^(n+1) m, the derivative is (x - a)^n h with h(a) = (n+1) m(a); and if that is not zero, no higher power
    divides it. *)
Theorem C105_multiplicity : forall T (O : num T) R den, lawful O R den -> forall a n m mv, is_value m (den a) mv ->
  let drops (p p' : poly R) := peq p (pmul (ppow (x_minus (den a)) (S n)) m) ->
    (exists h, is_value h (den a) (rmul (of_nat (S n)) mv) /\ peq p' (pmul (ppow (x_minus (den a)) n) h)) /\
    (rmul (of_nat (S n)) mv <> r0 -> forall g, pfin g -> ~ peq p' (pmul (ppow (x_minus (den a)) (S n)) g)) in
  (forall p p', vec_ok O p -> dense_derivative O p = Ok p' -> drops (dcoef R den p) (dcoef R den p')) /\
  (forall p p', swf p -> sparse_derivative O p = Ok p' -> drops (scoef R den p) (scoef R den p')).
Proof.
  intros T O R den L a n m mv Hm drops.
  assert (G : forall p p', peq p' (pderiv p) -> drops p p').
  { intros p p' Ed E. destruct (multiplicity_drop p m (den a) n mv Hm E) as [(h & Hh & Eh) Hn]. split.
    - exists h. split; [exact Hh|]. eapply peq_trans; [exact Ed|exact Eh].
    - intros Hne g Hg Eg. apply (Hn Hne g Hg). eapply peq_trans; [apply peq_sym, Ed|exact Eg]. }
  split; intros p p' Hp Hd; apply G; [apply (C13_dense_derivative T O R den L p p' Hp Hd)|apply (C13_sparse_derivative T O R den L p p' Hp Hd)].
Qed.

(** (x - 3)^2 (x + 1) = x^3 - 5x^2 + 3x + 9 and its derivative 3x^2 - 10x + 3 at 3; and at -1, a simple root of slope 16. *)
Example C105_case : let O := int_num true I32 in let z := mk_int I32 in let zs := map z in
  let p := zs [1; -5; 3; 9]%Z in
  rmap (map ival) (dense_derivative O p) = Ok [3; -10; 3]%Z /\
  rmap ival (dense_eval O p (z 3%Z)) = Ok 0%Z /\ rmap ival (dense_eval O (zs [3; -10; 3]%Z) (z 3%Z)) = Ok 0%Z /\
  rmap ival (dense_eval O p (z (-1)%Z)) = Ok 0%Z /\ rmap ival (dense_eval O (zs [3; -10; 3]%Z) (z (-1)%Z)) = Ok 16%Z /\
  rmap (fun s => (map ival (fst s), map ival (snd s))) (dense_div_mod O 9 p (zs [1; 1]%Z)) = Ok ([1; -6; 9]%Z, []) /\
  rmap (fun s => (map ival (fst s), map ival (snd s))) (dense_div_mod O 9 (zs [1; -6; 9]%Z) (zs [1; 1]%Z)) = Ok ([1; -7]%Z, [16]%Z) /\
  peq (dcoef Z_ring ival p) (pmul (ppow (@x_minus Z_ring 3%Z) 2) (@x_minus Z_ring (-1)%Z)).
Proof.
  repeat split; try (vm_compute; reflexivity). intros d. do 6 (destruct d as [|d]; [vm_compute; reflexivity|]).
  rewrite dcoef_overflow by (cbn; lia). symmetry. apply (pmul_support _ _ 4 2); [|intros [|[|[|i]]] Hi; [lia|lia|reflexivity..]|lia].
  intros i Hi. apply (pmul_support _ _ 2 2); [intros [|[|[|j]]] Hj; [lia|lia|reflexivity..]| |lia].
  intros j Hj. cbn [ppow]. rewrite pmul_comm, pmul_pone_l. destruct j as [|[|[|j]]]; [lia|lia|reflexivity..].
Qed.

Print Assumptions C105_slope.
Print Assumptions C105_repeated.
Print Assumptions C105_multiplicity.

(** ** C106 *)

(** The difference of two values is a multiple of the difference of the points, in the arithmetic of the coefficient type. *)
Theorem C106_difference : forall T (O : num T) R den, lawful O R den -> forall a b,
  (forall p u v, dense_eval O p a = Ok u -> dense_eval O p b = Ok v -> exists k, rsub (den u) (den v) = rmul (rsub (den a) (den b)) k) /\
  (forall p u v, Forall (fun kv => (fst kv < 2 ^ 32)%N) p -> sparse_eval O p a = Ok u -> sparse_eval O p b = Ok v ->
     exists k, rsub (den u) (den v) = rmul (rsub (den a) (den b)) k).
Proof.
  intros T O R den L a b. split.
  - intros p u v Hu Hv. apply (value_difference (dcoef R den p)); apply (C12_dense_eval T O R den L); assumption.
  - intros p u v K Hu Hv. apply (value_difference (scoef R den p)); apply (C12_sparse_eval T O R den L); assumption.
Qed.

(** Integers, in a debug build: congruent points have congruent values, and a root divides the constant coefficient. *)
Theorem C106_integers : forall t (a b : int t) (m : Z),
  (forall p u v, dense_eval (int_num true t) p a = Ok u -> dense_eval (int_num true t) p b = Ok v ->
     (ival a - ival b | ival u - ival v)%Z /\ ((m | ival a - ival b)%Z -> (m | ival u - ival v)%Z)) /\
  (forall p u, dense_eval (int_num true t) p a = Ok u -> ival u = 0%Z -> (ival a | dcoef Z_ring ival p 0%nat)%Z) /\
  (forall p u v, Forall (fun kv => (fst kv < 2 ^ 32)%N) p -> sparse_eval (int_num true t) p a = Ok u -> sparse_eval (int_num true t) p b = Ok v ->
     (ival a - ival b | ival u - ival v)%Z /\ ((m | ival a - ival b)%Z -> (m | ival u - ival v)%Z)) /\
  (forall p u, Forall (fun kv => (fst kv < 2 ^ 32)%N) p -> sparse_eval (int_num true t) p a = Ok u -> ival u = 0%Z -> (ival a | scoef Z_ring ival p 0%nat)%Z).
Proof.
  intros t a b m.
  assert (G : forall x y u v : Z, (exists k, @rsub Z_ring u v = @rmul Z_ring (@rsub Z_ring x y) k) -> (x - y | u - v)%Z /\ ((m | x - y)%Z -> (m | u - v)%Z)).
  { intros x y u v [k Hk]. cbn in Hk. assert (D : (x - y | u - v)%Z) by (exists k; lia). split; [exact D|]. intros Hm. eapply Z.divide_trans; eassumption. }
  assert (Z0 : forall (p : poly Z_ring) x, is_value p x 0%Z -> (x | p 0%nat)%Z).
  { intros p x Hx. destruct (value_pfin p x _ Hx) as [n Hn]. destruct (pfin_value p 0%Z) as [w Hw]; [exists n; exact Hn|].
    pose proof (is_value_at_0 p w Hw) as Ew. subst w. destruct (G x 0%Z 0%Z (p 0%nat) (value_difference p x 0%Z 0%Z (p 0%nat) Hx Hw)) as [[k D] _]. exists (- k)%Z. lia. }
  destruct (C106_difference (int t) (int_num true t) Z_ring ival (checked_lawful t) a b) as [D S]. split; [|split; [|split]].
  - intros p u v Hu Hv. apply G, (D p u v Hu Hv).
  - intros p u Hu E. apply Z0. rewrite <- E. apply (C12_dense_eval _ _ _ _ (checked_lawful t)), Hu.
  - intros p u v K Hu Hv. apply G, (S p u v K Hu Hv).
  - intros p u K Hu E. apply Z0. rewrite <- E. apply (C12_sparse_eval _ _ _ _ (checked_lawful t)); assumption.
Qed.

(** In a release build, up to the number of values of the type. *)
Theorem C106_integers_wrapping : forall t (a b : int t) p u v,
  dense_eval (int_num false t) p a = Ok u -> dense_eval (int_num false t) p b = Ok v ->
  (exists k j, ival u - ival v = (ival a - ival b) * k + 2 ^ bits t * j)%Z /\
  forall i, (0 <= i <= bits t)%Z -> (2 ^ i | ival a - ival b)%Z -> (2 ^ i | ival u - ival v)%Z.
Proof.
  intros t a b p u v Hu Hv.
  destruct (pfin_value (dcoef Z_ring ival p) (ival a) (dcoef_pfin Z_ring ival p)) as [x Hx]. destruct (pfin_value (dcoef Z_ring ival p) (ival b) (dcoef_pfin Z_ring ival p)) as [y Hy].
  destruct (C12_dense_eval_int_wrapping t p a x Hx) as (u' & Hu' & Eu). destruct (C12_dense_eval_int_wrapping t p b y Hy) as (v' & Hv' & Ev).
  rewrite Hu in Hu'. rewrite Hv in Hv'. apply Ok_inj in Hu', Hv'. subst u' v'.
  destruct (value_difference _ _ _ _ _ Hx Hy) as [k Hk]. cbn in Hk.
  assert (W : forall z, exists j, wrap t z = (z + 2 ^ bits t * j)%Z).
  { intros z. unfold wrap. exists (- ((z - imin t) / imod t))%Z. destruct (imin_max t) as (_ & H & _). pose proof (Z.div_mod (z - imin t) (imod t) ltac:(lia)) as D. fold (imod t). lia. }
  destruct (W x) as [j1 W1]. destruct (W y) as [j2 W2].
  assert (M : (ival u - ival v = (ival a - ival b) * k + 2 ^ bits t * (j1 - j2))%Z).
  { rewrite Eu, Ev, W1, W2. lia. }
  split; [exists k, (j1 - j2)%Z; exact M|]. intros i Hi Hd. rewrite M. apply Z.divide_add_r; [apply Z.divide_mul_l, Hd|].
  apply Z.divide_mul_l. exists (2 ^ (bits t - i))%Z. rewrite <- Z.pow_add_r by lia. f_equal. lia.
Qed.

(** x^3 - 5x^2 + 3x + 9 at 10 and 3: the difference of the values is a multiple of 7; its root 3 divides 9. In a release build
    over u8, 7x^2 at 200 and 8 differ by a multiple of 64, as the points do. *)
Example C106_case : let O := int_num true I32 in let z := mk_int I32 in let y := mk_int U8 in
  let p := map z [1; -5; 3; 9]%Z in
  rmap ival (dense_eval O p (z 10%Z)) = Ok 539%Z /\ rmap ival (dense_eval O p (z 3%Z)) = Ok 0%Z /\ (539 - 0 = (10 - 3) * 77)%Z /\ (9 = 3 * 3)%Z /\
  rmap ival (dense_eval (int_num false U8) (map y [7; 0; 0]%Z) (y 200%Z)) = Ok 192%Z /\
  rmap ival (dense_eval (int_num false U8) (map y [7; 0; 0]%Z) (y 8%Z)) = Ok 192%Z.
Proof. repeat split; vm_compute; reflexivity. Qed.

Print Assumptions C106_difference.
Print Assumptions C106_integers.
Print Assumptions C106_integers_wrapping.
