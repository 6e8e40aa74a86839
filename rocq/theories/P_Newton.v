(** Property C109: tangents and Newton steps through eval and derivative. *)

From Coq Require Import List NArith ZArith Lia Bool Arith.
From Coq Require Import ZifyBool ZifyNat ZifyN.
From Verif Require Import Base Num Spec SpecFacts Laws Terms Dense Sparse Wrap.
From Verif Require Import DenseFacts DenseArith DenseMul DenseCalc DenseDiv SparseFacts SparseArith SparseCalc.
From Verif Require Import P_Dense1 P_Dense2 P_Sparse1 P_Sparse2 SpecDegree P_Degree Expr P_Expr P_Modular P_RepeatedRoots.
Import ListNotations.
Local Open Scope nat_scope.

(** ** Lemmas *)
Section Tangent.
Context {R : comring}.
Add Ring R_ring4 : (r_theory R).
Implicit Types p q : poly R.

Lemma tangent p a b v s u : is_value p a v -> is_value (pderiv p) a s -> is_value p b u ->
  exists k, u = radd (radd v (rmul s (rsub b a))) (rmul (rmul (rsub b a) (rsub b a)) k).
Proof.
  intros Hv Hs Hu. destruct (value_pfin p a v Hv) as [n Hn]. destruct (deflate n p a Hn) as (q & w & E & V & B).
  assert (w = v) as -> by (apply (is_value_fun p a); assumption).
  destruct (pfin_value q a) as [s' Hs']; [eexists; exact B|]. destruct (pfin_value q b) as [y Hy]; [eexists; exact B|].
  assert (s' = s) as -> by (apply (is_value_fun (pderiv p) a); [apply (deriv_value p q a v s' E Hs')|exact Hs]).
  destruct (value_difference q b a y s Hy Hs') as [k Hk]. exists k.
  assert (K : u = radd (rmul y (rsub b a)) (rmul v (rpow b 0))).
  { apply (is_value_fun p b); [exact Hu|]. eapply is_value_ext; [apply peq_sym, E|]. apply is_value_padd; [|apply is_value_pmono].
    apply is_value_pmul; [exact Hy|apply is_value_plin]. }
  assert (Y : y = radd s (rmul (rsub b a) k)) by (rewrite <- Hk; ring). rewrite K, Y. cbn [rpow]. ring.
Qed.
End Tangent.

(** ** C109 *)

(** A value is the value of the tangent up to a multiple of the square of the distance. *)
Theorem C109_tangent : forall T (O : num T) R den, lawful O R den -> forall a b,
  (forall p p' v s u, vec_ok O p -> dense_derivative O p = Ok p' ->
     dense_eval O p a = Ok v -> dense_eval O p' a = Ok s -> dense_eval O p b = Ok u ->
     exists k, den u = radd (radd (den v) (rmul (den s) (rsub (den b) (den a)))) (rmul (rmul (rsub (den b) (den a)) (rsub (den b) (den a))) k)) /\
  (forall p p' v s u, swf p -> Forall (fun kv => (fst kv < 2 ^ 32)%N) p -> Forall (fun kv => (fst kv < 2 ^ 32)%N) p' -> sparse_derivative O p = Ok p' ->
     sparse_eval O p a = Ok v -> sparse_eval O p' a = Ok s -> sparse_eval O p b = Ok u ->
     exists k, den u = radd (radd (den v) (rmul (den s) (rsub (den b) (den a)))) (rmul (rmul (rsub (den b) (den a)) (rsub (den b) (den a))) k)).
Proof.
  intros T O R den L a b. split.
  - intros p p' v s u Hp Hd Hv Hs Hu. apply (tangent (dcoef R den p)); try (apply (C12_dense_eval T O R den L); assumption).
    eapply is_value_ext; [|apply (C12_dense_eval T O R den L), Hs]. apply (C13_dense_derivative T O R den L); assumption.
  - intros p p' v s u Hp K K' Hd Hv Hs Hu. apply (tangent (scoef R den p)); try (apply (C12_sparse_eval T O R den L); assumption).
    eapply is_value_ext; [|apply (C12_sparse_eval T O R den L); [exact K'|exact Hs]]. apply (C13_sparse_derivative T O R den L p p' Hp Hd).
Qed.

Lemma newton_divides (m a b v s x k : Z) : (m | v)%Z -> (m | s * x - 1)%Z -> (m * m | b - (a - v * x))%Z ->
  (m * m | v + s * (b - a) + (b - a) * (b - a) * k)%Z.
Proof.
  intros [c ->] [e He] [g Hg]. assert (Eb : (b - a = m * m * g - c * m * x)%Z) by lia. rewrite Eb.
  exists (s * g - c * e + (m * g - c * x) * (m * g - c * x) * k)%Z.
  transitivity (c * m + s * m * m * g - c * m * (s * x) + (m * m * g - c * m * x) * (m * m * g - c * m * x) * k)%Z; [ring|].
  replace (s * x)%Z with (e * m + 1)%Z by lia. ring.
Qed.

(** Integers, in a debug build: from a root modulo m to a root modulo m^2. *)
Theorem C109_newton : forall t (a b : int t) (m x : Z),
  (forall p p' v s u, vec_ok (int_num true t) p -> dense_derivative (int_num true t) p = Ok p' ->
     dense_eval (int_num true t) p a = Ok v -> dense_eval (int_num true t) p' a = Ok s -> dense_eval (int_num true t) p b = Ok u ->
     (m | ival v)%Z -> (m | ival s * x - 1)%Z -> (m * m | ival b - (ival a - ival v * x))%Z -> (m * m | ival u)%Z) /\
  (forall p p' v s u, swf p -> Forall (fun kv => (fst kv < 2 ^ 32)%N) p -> Forall (fun kv => (fst kv < 2 ^ 32)%N) p' ->
     sparse_derivative (int_num true t) p = Ok p' ->
     sparse_eval (int_num true t) p a = Ok v -> sparse_eval (int_num true t) p' a = Ok s -> sparse_eval (int_num true t) p b = Ok u ->
     (m | ival v)%Z -> (m | ival s * x - 1)%Z -> (m * m | ival b - (ival a - ival v * x))%Z -> (m * m | ival u)%Z).
Proof.
  intros t a b m x. destruct (C109_tangent (int t) (int_num true t) Z_ring ival (checked_lawful t) a b) as [D S]. split.
  - intros p p' v s u Hp Hd Hv Hs Hu H1 H2 H3. destruct (D p p' v s u Hp Hd Hv Hs Hu) as [k Hk]. cbn in Hk. rewrite Hk. eapply newton_divides; eassumption.
  - intros p p' v s u Hp K K' Hd Hv Hs Hu H1 H2 H3. destruct (S p p' v s u Hp K K' Hd Hv Hs Hu) as [k Hk]. cbn in Hk. rewrite Hk. eapply newton_divides; eassumption.
Qed.

Lemma wrap_mod t z : exists j, (wrap t z = z + 2 ^ bits t * j)%Z.
Proof.
  unfold wrap. exists (- ((z - imin t) / imod t))%Z. destruct (imin_max t) as (_ & H & _). pose proof (Z.div_mod (z - imin t) (imod t) ltac:(lia)) as D. fold (imod t). lia.
Qed.

(** In a release build, whatever wraps around: from a root modulo 2^i to a root modulo 2^(2i), as far as the type reaches. *)
Theorem C109_newton_wrapping : forall t (a b : int t) (i x : Z), (0 <= i)%Z -> (2 * i <= bits t)%Z ->
  (forall p p' v s u, vec_ok (int_num false t) p -> dense_derivative (int_num false t) p = Ok p' ->
     dense_eval (int_num false t) p a = Ok v -> dense_eval (int_num false t) p' a = Ok s -> dense_eval (int_num false t) p b = Ok u ->
     (2 ^ i | ival v)%Z -> (2 ^ i | ival s * x - 1)%Z -> (2 ^ bits t | ival b - (ival a - ival v * x))%Z -> (2 ^ (2 * i) | ival u)%Z) /\
  (forall p p' v s u, swf p -> Forall (fun kv => (fst kv < 2 ^ 32)%N) p -> Forall (fun kv => (fst kv < 2 ^ 32)%N) p' ->
     sparse_derivative (int_num false t) p = Ok p' ->
     sparse_eval (int_num false t) p a = Ok v -> sparse_eval (int_num false t) p' a = Ok s -> sparse_eval (int_num false t) p b = Ok u ->
     (2 ^ i | ival v)%Z -> (2 ^ i | ival s * x - 1)%Z -> (2 ^ bits t | ival b - (ival a - ival v * x))%Z -> (2 ^ (2 * i) | ival u)%Z).
Proof.
  intros t a b i x Hi Hb. destruct (C109_tangent (int t) (int_num false t) (w_ring t) (fun a => a) (wrapping_lawful t) a b) as [D S].
  assert (G : forall v s u k : int t, u = @radd (w_ring t) (@radd (w_ring t) v (@rmul (w_ring t) s (@rsub (w_ring t) b a))) (@rmul (w_ring t) (@rmul (w_ring t) (@rsub (w_ring t) b a) (@rsub (w_ring t) b a)) k) ->
    (2 ^ i | ival v)%Z -> (2 ^ i | ival s * x - 1)%Z -> (2 ^ bits t | ival b - (ival a - ival v * x))%Z -> (2 ^ (2 * i) | ival u)%Z).
  { intros v s u k -> H1 H2 H3.
    assert (W : (2 ^ i * 2 ^ i | 2 ^ bits t)%Z).
    { rewrite <- Z.pow_add_r by lia. exists (2 ^ (bits t - (i + i)))%Z. rewrite <- Z.pow_add_r by lia. f_equal. lia. }
    replace (2 * i)%Z with (i + i)%Z by lia. rewrite Z.pow_add_r by lia.
    assert (E : exists j, (ival (@radd (w_ring t) (@radd (w_ring t) v (@rmul (w_ring t) s (@rsub (w_ring t) b a))) (@rmul (w_ring t) (@rmul (w_ring t) (@rsub (w_ring t) b a) (@rsub (w_ring t) b a)) k))
      = ival v + ival s * (ival b - ival a) + (ival b - ival a) * (ival b - ival a) * ival k + 2 ^ bits t * j)%Z).
    { cbn. unfold w_add, w_mul, w_sub. cbn [ival mk_int].
      destruct (wrap_mod t (ival b - ival a)) as [j1 ->]. set (d := (ival b - ival a)%Z).
      destruct (wrap_mod t (ival s * (d + 2 ^ bits t * j1))) as [j2 ->].
      destruct (wrap_mod t ((d + 2 ^ bits t * j1) * (d + 2 ^ bits t * j1))) as [j3 ->].
      match goal with |- context [wrap t (?e * ival k)] => destruct (wrap_mod t (e * ival k)) as [j4 ->] end.
      match goal with |- context [wrap t (ival v + ?e)] => destruct (wrap_mod t (ival v + e)) as [j5 ->] end.
      match goal with |- context [wrap t ?e] => destruct (wrap_mod t e) as [j6 ->] end.
      exists (ival s * j1 + j2 + j5 + (2 * d * j1 + 2 ^ bits t * j1 * j1 + j3) * ival k + j4 + j6)%Z. ring. }
    destruct E as [j ->]. apply Z.divide_add_r; [|apply Z.divide_mul_l, W].
    eapply newton_divides; [exact H1|exact H2|]. eapply Z.divide_trans; [exact W|exact H3]. }
  split.
  - intros p p' v s u Hp Hd Hv Hs Hu H1 H2 H3. destruct (D p p' v s u Hp Hd Hv Hs Hu) as [k Hk]. apply (G v s u k Hk H1 H2 H3).
  - intros p p' v s u Hp K K' Hd Hv Hs Hu H1 H2 H3. destruct (S p p' v s u Hp K K' Hd Hv Hs Hu) as [k Hk]. apply (G v s u k Hk H1 H2 H3).
Qed.

(** x^2 - 2 has the root 3 modulo 7: with 6 * 6 = 36, a Newton step leads to 3 - 7 * 6 = -39, and -39^2 - 2 = 49 * 31. Over
    u8 in a release build, 7x - 1 has the root 7 modulo 16 (48 = 3 * 16, 7 * 7 - 1); the step leads to 7 - 48 * 7 = 183, and 7 * 183 - 1 wraps to 0. *)
Example C109_case : let O := int_num true I32 in let W := int_num false U8 in let z := mk_int I32 in let y := mk_int U8 in
  rmap (map ival) (dense_derivative O (map z [1; 0; -2]%Z)) = Ok [2; 0]%Z /\
  rmap ival (dense_eval O (map z [1; 0; -2]%Z) (z 3%Z)) = Ok 7%Z /\ rmap ival (dense_eval O (map z [2; 0]%Z) (z 3%Z)) = Ok 6%Z /\
  (6 * 6 - 1 = 7 * 5)%Z /\ rmap ival (dense_eval O (map z [1; 0; -2]%Z) (z (3 - 7 * 6)%Z)) = Ok (49 * 31)%Z /\
  rmap ival (dense_eval W (map y [7; -1]%Z) (y 7%Z)) = Ok 48%Z /\ rmap (map ival) (dense_derivative W (map y [7; -1]%Z)) = Ok [7]%Z /\
  ival (y (7 - 48 * 7)%Z) = 183%Z /\ rmap ival (dense_eval W (map y [7; -1]%Z) (y 183%Z)) = Ok 0%Z.
Proof. repeat split; vm_compute; reflexivity. Qed.

Print Assumptions C109_tangent.
Print Assumptions C109_newton.
Print Assumptions C109_newton_wrapping.
