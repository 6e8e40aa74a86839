(** Property C113: values at equally spaced points. *)

From Coq Require Import List NArith ZArith Lia Bool Arith Factorial.
From Coq Require Import ZifyBool ZifyNat ZifyN.
From Verif Require Import Base Num Spec SpecFacts Laws Terms Dense Sparse Wrap.
From Verif Require Import DenseFacts DenseArith DenseMul DenseCalc DenseDiv SparseFacts SparseArith SparseCalc.
From Verif Require Import P_Dense1 P_Dense2 P_Sparse1 P_Sparse2 SpecDegree P_Degree Expr P_Expr P_Modular P_RepeatedRoots P_Newton P_Taylor.
Import ListNotations.
Local Open Scope nat_scope.

(** ** Specification *)

Section Tables.
Context {R : comring}.
(** The differences of neighbouring entries, and the n-th row of the table of differences. *)
Fixpoint diff (l : list (car R)) : list (car R) :=
  match l with
  | x :: t => match t with y :: _ => rsub y x :: diff t | [] => [] end
  | [] => []
  end.
Fixpoint diffs (n : nat) (l : list (car R)) : list (car R) := match n with 0 => l | S n => diffs n (diff l) end.

(** Each point is the one before it plus h. *)
Fixpoint spaced (h : car R) (l : list (car R)) : Prop :=
  match l with
  | x :: t => match t with y :: _ => y = radd x h /\ spaced h t | [] => True end
  | [] => True
  end.
End Tables.

(** ** Lemmas *)
Section Differences.
Context {R : comring}.
Add Ring R_ring8 : (r_theory R).
Implicit Types p q : poly R.

Definition tail_of p : poly R := fun i => p (S i).

Lemma tail_value p x u : is_value p x u -> exists u', is_value (tail_of p) x u' /\ u = radd (p 0) (rmul x u').
Proof.
  intros Hu. destruct (value_pfin p x u Hu) as [n Hn].
  assert (Ht : forall i, n <= i -> tail_of p i = r0) by (intros i Hi; apply Hn; lia).
  destruct (pfin_value (tail_of p) x (ex_intro _ n Ht)) as [u' Hu']. exists u'. split; [exact Hu'|].
  apply (is_value_fun p x); [exact Hu|].
  apply (is_value_ext (padd (pmono (p 0) 0) (pmul (tail_of p) (plin r0)))).
  - intros d. unfold padd. rewrite pmul_plin. unfold pmono, tail_of. destruct d; cbn [Nat.eqb]; ring.
  - replace (radd (p 0) (rmul x u')) with (radd (rmul (p 0) (rpow x 0)) (rmul u' (rsub x r0))) by (cbn [rpow]; ring).
    apply is_value_padd; [apply is_value_pmono|]. apply is_value_pmul; [exact Hu'|apply is_value_plin].
Qed.

(** p(x + h) - p(x) is a polynomial of lower degree. *)
Lemma shift_difference n : forall p h, (forall i, n < i -> p i = r0) ->
  exists q, pfin q /\ (forall x u v, is_value p x u -> is_value p (radd x h) v -> is_value q x (rsub v u)) /\
    match n with
    | 0 => forall i, q i = r0
    | S m => (forall i, m < i -> q i = r0) /\ q m = rmul (of_nat n) (rmul h (p n))
    end.
Proof.
  induction n as [|n IH]; intros p h Hp.
  - exists pzero. split; [exists 0; reflexivity|]. split; [|reflexivity]. intros x u v Hu Hv.
    assert (C : forall y, is_value p y (p 0)) by (intros y; apply is_value_const; intros i Hi; apply Hp; lia).
    rewrite (is_value_fun p x _ _ Hu (C x)), (is_value_fun p _ _ _ Hv (C _)).
    replace (rsub (p 0) (p 0)) with (@r0 R) by ring. apply is_value_zero. intros d. reflexivity.
  - destruct (IH (tail_of p) h) as (q & Fq & Vq & Bq); [intros i Hi; apply Hp; lia|].
    assert (Ft : pfin (tail_of p)) by (exists (S n); intros i Hi; apply Hp; lia).
    exists (padd (pmul q (plin (ropp h))) (pscale (tail_of p) h)). split; [|split].
    + apply pfin_add; [apply pfin_mul; [exact Fq|apply pfin_lin]|]. destruct Ft as [k Hk]. exists k. intros i Hi. unfold pscale. rewrite (Hk i Hi). ring.
    + intros x u v Hu Hv. destruct (tail_value p x u Hu) as (u' & Hu' & ->). destruct (tail_value p _ v Hv) as (v' & Hv' & ->).
      specialize (Vq x u' v' Hu' Hv').
      replace (rsub (radd (p 0) (rmul (radd x h) v')) (radd (p 0) (rmul x u'))) with (radd (rmul (rsub v' u') (rsub x (ropp h))) (rmul u' h)) by ring.
      apply is_value_padd; [|apply is_value_pscale, Hu']. apply is_value_pmul; [exact Vq|apply is_value_plin].
    + assert (C : forall d, padd (pmul q (plin (ropp h))) (pscale (tail_of p) h) d = radd (radd (match d with 0 => r0 | S d' => q d' end) (rmul (q d) h)) (rmul (p (S d)) h)).
      { intros d. unfold padd, pscale, tail_of. rewrite pmul_plin. destruct d; ring. }
      destruct n as [|k].
      * split.
        -- intros [|i] Hi; [lia|]. rewrite C, !Bq, Hp by lia. ring.
        -- rewrite C, !Bq. cbn [of_nat]. ring.
      * destruct Bq as [B1 B2]. split.
        -- intros [|i] Hi; [lia|]. rewrite C, (B1 i), (B1 (S i)), Hp by lia. ring.
        -- rewrite C, B2, (B1 (S k)) by lia. unfold tail_of. cbn [of_nat]. ring.
Qed.

Lemma diff_cons2 (x y : car R) l : diff (x :: y :: l) = rsub y x :: diff (y :: l).
Proof. reflexivity. Qed.
Lemma spaced_cons2 h (x y : car R) l : spaced h (x :: y :: l) = (y = radd x h /\ spaced h (y :: l)).
Proof. reflexivity. Qed.

(** The differences of values are values of the difference. *)
Lemma diff_values p q h : (forall x u v, is_value p x u -> is_value p (radd x h) v -> is_value q x (rsub v u)) ->
  forall xs vs, spaced h xs -> Forall2 (is_value p) xs vs -> Forall2 (is_value q) (removelast xs) (diff vs) /\ spaced h (removelast xs).
Proof.
  intros Hq. induction xs as [|x xs IH]; intros vs Hs Hv; inversion_clear Hv as [|? v ? vs' Hx Hr]; [split; [constructor|exact I]|].
  destruct xs as [|y xs]; inversion_clear Hr as [|? w ? ws Hy Hr'].
  - split; [constructor|exact I].
  - rewrite spaced_cons2 in Hs. destruct Hs as [Ey Hs]. destruct (IH (w :: ws) Hs ltac:(constructor; assumption)) as [I1 I2].
    rewrite diff_cons2. change (removelast (x :: y :: xs)) with (x :: removelast (y :: xs)). split.
    + constructor; [|exact I1]. apply Hq; [exact Hx|rewrite <- Ey; exact Hy].
    + destruct xs as [|z xs]; [exact I|]. change (removelast (y :: z :: xs)) with (y :: removelast (z :: xs)) in *.
      rewrite spaced_cons2. split; [exact Ey|exact I2].
Qed.

Lemma diffs_const n : forall p h xs vs, (forall i, n < i -> p i = r0) -> spaced h xs -> Forall2 (is_value p) xs vs ->
  Forall (eq (rmul (of_nat (fact n)) (rmul (rpow h n) (p n)))) (diffs n vs).
Proof.
  induction n as [|n IH]; intros p h xs vs Hp Hs Hv.
  - cbn [diffs fact of_nat rpow]. induction Hv as [|x v xs vs Hx _ IHv]; constructor.
    + replace (rmul (radd r1 r0) (rmul r1 (p 0))) with (p 0) by ring. apply (is_value_fun p x); [|exact Hx]. apply is_value_const. intros i Hi. apply Hp. lia.
    + apply IHv. destruct xs as [|y xs]; [exact I|]. apply Hs.
  - destruct (shift_difference (S n) p h Hp) as (q & _ & Vq & Bq & Eq). destruct (diff_values p q h Vq xs vs Hs Hv) as [V S1].
    cbn [diffs]. specialize (IH q h _ _ Bq S1 V). rewrite Eq in IH.
    replace (rmul (of_nat (fact (S n))) (rmul (rpow h (S n)) (p (S n)))) with (rmul (of_nat (fact n)) (rmul (rpow h n) (rmul (of_nat (S n)) (rmul h (p (S n)))))); [exact IH|].
    change (fact (S n)) with (S n * fact n). rewrite of_nat_mul. cbn [rpow]. ring.
Qed.

Lemma diffs_zero n p h xs vs k : (forall i, n < i -> p i = r0) -> n < k -> spaced h xs -> Forall2 (is_value p) xs vs ->
  Forall (eq r0) (diffs k vs).
Proof.
  intros Hp Hk Hs Hv. pose proof (diffs_const k p h xs vs ltac:(intros i Hi; apply Hp; lia) Hs Hv) as H. rewrite Hp in H by exact Hk.
  replace (rmul (of_nat (fact k)) (rmul (rpow h k) r0)) with (@r0 R) in H by ring. exact H.
Qed.
End Differences.

(** ** C113 *)

(** Values of a polynomial of degree n at equally spaced points: the n-th differences are all n! h^n times the leading
    coefficient, and higher differences vanish. *)
Theorem C113_differences : forall T (O : num T) R den, lawful O R den -> forall h n xs vs, spaced h (map den xs) ->
  (forall p, dense_degree O p = Num (N.of_nat n) -> Forall2 (fun x v => dense_eval O p x = Ok v) xs vs ->
     Forall (eq (rmul (of_nat (fact n)) (rmul (rpow h n) (dcoef R den p n)))) (diffs n (map den vs)) /\
     forall k, n < k -> Forall (eq r0) (diffs k (map den vs))) /\
  (forall m, swf m -> Forall (fun kv => (fst kv < 2 ^ 32)%N) m -> sparse_degree O m = Num (N.of_nat n) ->
     Forall2 (fun x v => sparse_eval O m x = Ok v) xs vs ->
     Forall (eq (rmul (of_nat (fact n)) (rmul (rpow h n) (scoef R den m n)))) (diffs n (map den vs)) /\
     forall k, n < k -> Forall (eq r0) (diffs k (map den vs))).
Proof.
  intros T O R den L h n xs vs Hs.
  assert (G : forall (p : poly R) (f : T -> res T), (forall x v, f x = Ok v -> is_value p (den x) (den v)) -> Forall2 (fun x v => f x = Ok v) xs vs ->
    Forall2 (is_value p) (map den xs) (map den vs)).
  { intros p f Hf H. clear Hs. induction H; constructor; auto. }
  split.
  - intros p Hp Hv. pose proof (C02_dense_degree T O R den L p) as D. rewrite Hp in D. cbn in D. rewrite Nat2N.id in D. destruct D as [_ D].
    pose proof (G (dcoef R den p) _ (fun x v => C12_dense_eval T O R den L p x v) Hv) as V. split.
    + apply (diffs_const n (dcoef R den p) h (map den xs)); assumption.
    + intros k Hk. apply (diffs_zero n (dcoef R den p) h (map den xs)); assumption.
  - intros m Hm K Hp Hv. destruct (C02_sparse_degree T O R den L m Hm) as [D _]. rewrite Hp in D. cbn in D. rewrite Nat2N.id in D. destruct D as [_ D].
    pose proof (G (scoef R den m) _ (fun x v => C12_sparse_eval T O R den L m x v K) Hv) as V. split.
    + apply (diffs_const n (scoef R den m) h (map den xs)); assumption.
    + intros k Hk. apply (diffs_zero n (scoef R den m) h (map den xs)); assumption.
Qed.

(** Every integer type in a debug build. *)
Theorem C113_int : forall t h n (xs vs : list (int t)), @spaced Z_ring h (map ival xs) ->
  (forall p, dense_degree (int_num true t) p = Num (N.of_nat n) -> Forall2 (fun x v => dense_eval (int_num true t) p x = Ok v) xs vs ->
     Forall (eq (Z.of_nat (fact n) * h ^ Z.of_nat n * dcoef Z_ring ival p n)%Z) (@diffs Z_ring n (map ival vs)) /\
     forall k, n < k -> Forall (eq 0%Z) (@diffs Z_ring k (map ival vs))) /\
  (forall m, swf m -> Forall (fun kv => (fst kv < 2 ^ 32)%N) m -> sparse_degree (int_num true t) m = Num (N.of_nat n) ->
     Forall2 (fun x v => sparse_eval (int_num true t) m x = Ok v) xs vs ->
     Forall (eq (Z.of_nat (fact n) * h ^ Z.of_nat n * scoef Z_ring ival m n)%Z) (@diffs Z_ring n (map ival vs)) /\
     forall k, n < k -> Forall (eq 0%Z) (@diffs Z_ring k (map ival vs))).
Proof.
  intros t h n xs vs Hs. destruct (C113_differences (int t) (int_num true t) Z_ring ival (checked_lawful t) h n xs vs Hs) as [D S].
  assert (E : forall c, @rmul Z_ring (@of_nat Z_ring (fact n)) (@rmul Z_ring (@rpow Z_ring h n) c) = (Z.of_nat (fact n) * h ^ Z.of_nat n * c)%Z).
  { intros c. rewrite of_nat_Z. change (@rmul Z_ring) with Z.mul. rewrite Z.mul_assoc. f_equal. f_equal.
    clear. induction n as [|n IH]; [reflexivity|]. cbn [rpow]. rewrite IH, Nat2Z.inj_succ, Z.pow_succ_r by lia. reflexivity. }
  split.
  - intros p Hp Hv. destruct (D p Hp Hv) as [D1 D2]. rewrite E in D1. split; [exact D1|exact D2].
  - intros m Hm K Hp Hv. destruct (S m Hm K Hp Hv) as [D1 D2]. rewrite E in D1. split; [exact D1|exact D2].
Qed.

Lemma w_rpow t (h : int t) n : exists j, ival (@rpow (w_ring t) h n) = (ival h ^ Z.of_nat n + 2 ^ bits t * j)%Z.
Proof.
  induction n as [|n [j IH]]; [exists 0%Z; destruct t; reflexivity|].
  assert (E : ival (@rpow (w_ring t) h (S n)) = wrap t (ival h * ival (@rpow (w_ring t) h n))) by reflexivity.
  rewrite E, IH, Nat2Z.inj_succ, Z.pow_succ_r by lia. destruct (wrap_mod t (ival h * (ival h ^ Z.of_nat n + 2 ^ bits t * j))) as [k ->].
  generalize (ival h) (ival h ^ Z.of_nat n)%Z (2 ^ bits t)%Z. intros x y m. exists (x * j + k)%Z. ring.
Qed.

Lemma w_top t (h c : int t) n : (2 ^ bits t | ival (@rmul (w_ring t) (@of_nat (w_ring t) (fact n)) (@rmul (w_ring t) (@rpow (w_ring t) h n) c)) - Z.of_nat (fact n) * ival h ^ Z.of_nat n * ival c)%Z.
Proof.
  assert (E : ival (@rmul (w_ring t) (@of_nat (w_ring t) (fact n)) (@rmul (w_ring t) (@rpow (w_ring t) h n) c)) =
    wrap t (ival (@of_nat (w_ring t) (fact n)) * wrap t (ival (@rpow (w_ring t) h n) * ival c))) by reflexivity.
  rewrite E. destruct (w_rpow t h n) as [j1 ->]. destruct (of_nat_w t (fact n)) as [j2 ->].
  destruct (wrap_mod t ((ival h ^ Z.of_nat n + 2 ^ bits t * j1) * ival c)) as [j3 ->].
  destruct (wrap_mod t ((Z.of_nat (fact n) + 2 ^ bits t * j2) * ((ival h ^ Z.of_nat n + 2 ^ bits t * j1) * ival c + 2 ^ bits t * j3))) as [j4 ->].
  generalize (ival c) (ival h ^ Z.of_nat n)%Z (Z.of_nat (fact n)) (2 ^ bits t)%Z. intros x y f m.
  exists (f * j1 * x + f * j3 + j2 * ((y + m * j1) * x + m * j3) + j4)%Z. ring.
Qed.

(** Every integer type in a release build, whatever wraps around: both claims modulo 2^bits. *)
Theorem C113_int_wrapping : forall t (h : int t) n (xs vs : list (int t)), @spaced (w_ring t) h xs ->
  (forall p, dense_degree (int_num false t) p = Num (N.of_nat n) -> Forall2 (fun x v => dense_eval (int_num false t) p x = Ok v) xs vs ->
     Forall (fun e => (2 ^ bits t | ival e - Z.of_nat (fact n) * ival h ^ Z.of_nat n * ival (@dcoef _ (w_ring t) (fun a => a) p n))%Z) (@diffs (w_ring t) n vs) /\
     forall k, n < k -> Forall (fun e => ival e = 0%Z) (@diffs (w_ring t) k vs)) /\
  (forall m, swf m -> Forall (fun kv => (fst kv < 2 ^ 32)%N) m -> sparse_degree (int_num false t) m = Num (N.of_nat n) ->
     Forall2 (fun x v => sparse_eval (int_num false t) m x = Ok v) xs vs ->
     Forall (fun e => (2 ^ bits t | ival e - Z.of_nat (fact n) * ival h ^ Z.of_nat n * ival (@scoef _ (w_ring t) (fun a => a) m n))%Z) (@diffs (w_ring t) n vs) /\
     forall k, n < k -> Forall (fun e => ival e = 0%Z) (@diffs (w_ring t) k vs)).
Proof.
  intros t h n xs vs Hs. rewrite <- (map_id xs) in Hs.
  destruct (C113_differences (int t) (int_num false t) (w_ring t) (fun a => a) (wrapping_lawful t) h n xs vs Hs) as [D S]. rewrite map_id in D, S.
  assert (Z0 : ival (@r0 (w_ring t)) = 0%Z) by (destruct t; reflexivity). split.
  - intros p Hp Hv. destruct (D p Hp Hv) as [D1 D2]. split.
    + eapply Forall_impl; [|exact D1]. intros e <-. apply w_top.
    + intros k Hk. eapply Forall_impl; [|apply (D2 k Hk)]. intros e <-. exact Z0.
  - intros m Hm K Hp Hv. destruct (S m Hm K Hp Hv) as [D1 D2]. split.
    + eapply Forall_impl; [|exact D1]. intros e <-. apply w_top.
    + intros k Hk. eapply Forall_impl; [|apply (D2 k Hk)]. intros e <-. exact Z0.
Qed.

Lemma same_int t (x : res (int t)) v : rmap ival x = Ok (ival v) -> x = Ok v.
Proof. destruct x as [w| |]; try discriminate. cbn. intros H. injection H as H. f_equal. apply int_eq, H. Qed.

(** x^2 + 1 at -1, 1, 3, 5: the values 2, 2, 10, 26 have the second differences 8 = 2! * 2^2 * 1, and no third. Over u8 in a
    release build 5x^2 + 1 at 100, 101, 102, 103 gives values which wrap, but the second differences are 10 = 2! * 1^2 * 5, and the third is 0. *)
Example C113_case : let O := int_num true I32 in let z := mk_int I32 in let W := int_num false U8 in let y := mk_int U8 in
  @spaced Z_ring 2%Z (map ival (map z [-1; 1; 3; 5]%Z)) /\ dense_degree O (map z [1; 0; 1]%Z) = Num 2 /\
  Forall2 (fun x v => dense_eval O (map z [1; 0; 1]%Z) x = Ok v) (map z [-1; 1; 3; 5]%Z) (map z [2; 2; 10; 26]%Z) /\
  @diffs Z_ring 2 [2; 2; 10; 26]%Z = [8; 8]%Z /\ @diffs Z_ring 3 [2; 2; 10; 26]%Z = [0]%Z /\
  @spaced (w_ring U8) (y 1%Z) (map y [100; 101; 102; 103]%Z) /\ dense_degree W (map y [5; 0; 1]%Z) = Num 2 /\
  Forall2 (fun x v => dense_eval W (map y [5; 0; 1]%Z) x = Ok v) (map y [100; 101; 102; 103]%Z) (map y [81; 62; 53; 54]%Z) /\
  map ival (@diffs (w_ring U8) 2 (map y [81; 62; 53; 54]%Z)) = [10; 10]%Z /\
  map ival (@diffs (w_ring U8) 3 (map y [81; 62; 53; 54]%Z)) = [0]%Z.
Proof.
  intros O z W y. split; [vm_compute; repeat split|]. split; [vm_compute; reflexivity|].
  split; [repeat (constructor; [apply same_int; vm_compute; reflexivity|]); constructor|].
  split; [reflexivity|]. split; [reflexivity|].
  split; [cbn [map spaced]; repeat (split; [apply int_eq; vm_compute; reflexivity|]); exact I|]. split; [vm_compute; reflexivity|].
  split; [repeat (constructor; [apply same_int; vm_compute; reflexivity|]); constructor|]. split; vm_compute; reflexivity.
Qed.

Print Assumptions C113_differences.
Print Assumptions C113_int.
Print Assumptions C113_int_wrapping.
