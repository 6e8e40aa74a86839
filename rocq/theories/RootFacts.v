(** Facts about root finding that hold for every coefficient type. *)

From Coq Require Import List NArith ZArith Lia Bool Ring Arith.
From Coq Require Import ZifyBool ZifyNat ZifyN.
From Verif Require Import Base Num Spec SpecFacts Laws Terms Dense DenseFacts DenseMul Mono Bino Trino FixedFacts Roots.
Import ListNotations.

Section RootFacts.
Context {T : Type} (O : num T) (R : comring) (den : T -> car R) (L : lawful O R den).
Add Ring Rring_rf : (r_theory R).

Lemma bpoly_value b x v : is_value (bpoly R den b) x v <-> v = radd (rmul (den (bc0 b)) x) (den (bc1 b)).
Proof.
  assert (F : forall i, (2 <= i)%nat -> bpoly R den b i = r0).
  { intros i Hi. rewrite bpoly_at. destruct i as [|[|i]]; [lia|lia|reflexivity]. }
  assert (E : sumn (fun i => rmul (bpoly R den b i) (rpow x i)) 2 = radd (rmul (den (bc0 b)) x) (den (bc1 b))).
  { cbn [sumn]. rewrite !bpoly_at. simpl. ring. }
  split.
  - intros H. rewrite <- E. eapply is_value_fun; [exact H|]. exists 2%nat. split; [exact F|reflexivity].
  - intros ->. exists 2%nat. split; [exact F|symmetry; exact E].
Qed.

Lemma mpoly_value m x v : is_value (mpoly R den m) x v <-> v = rmul (den (mcoef m)) (rpow x (N.to_nat (mdeg m))).
Proof.
  split.
  - intros H. eapply is_value_fun; [exact H|]. apply is_value_pmono.
  - intros ->. apply is_value_pmono.
Qed.

Lemma linear_root (HD : domain R) (a b r x : car R) : a <> r0 -> rmul r a = ropp b ->
  (r0 = radd (rmul a x) b <-> x = r).
Proof.
  intros Ha Hr. split.
  - intros H. assert (K : rmul a (rsub x r) = r0).
    { replace (rmul a (rsub x r)) with (rsub (radd (rmul a x) b) (radd (rmul r a) b)) by ring. rewrite <- H, Hr. ring. }
    destruct (HD _ _ K) as [K1|K1]; [contradiction|]. apply rsub_eq_0, K1.
  - intros ->. replace (radd (rmul a r) b) with (radd (rmul r a) b) by ring. rewrite Hr. ring.
Qed.

Lemma rpow_root (HD : domain R) (x : car R) k : rpow x (S k) = r0 -> x = r0.
Proof.
  induction k as [|k IH]; intros H.
  - simpl in H. rewrite rmul_1_r in H. exact H.
  - cbn [rpow] in H. destruct (HD _ _ H) as [|H']; [assumption|]. apply IH, H'.
Qed.
End RootFacts.
