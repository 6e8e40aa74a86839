(** Wrapping integers in terms of exact integers: reduction modulo 2^bits is a ring
    homomorphism from Z onto [w_ring t]. *)

From Coq Require Import List NArith ZArith Lia Bool Arith.
From Coq Require Import ZifyBool ZifyNat ZifyN.
From Verif Require Import Base Num Spec SpecFacts Laws DenseFacts.
Import ListNotations.
Local Open Scope Z_scope.

Section Wrap.
Variable t : ity.
Notation W := (w_ring t).

(** Reduce every coefficient into the type. *)
Definition wred (p : poly Z_ring) : poly W := fun d => mk_int t (p d).

Lemma wadd_hom a b : mk_int t (a + b) = w_add t (mk_int t a) (mk_int t b).
Proof.
  unfold w_add. apply mk_int_congr. cbn [ival mk_int]. rewrite (Zplus_mod (wrap t a)), !wrap_mod, <- Zplus_mod.
  reflexivity.
Qed.

Lemma wsub_hom a b : mk_int t (a - b) = w_sub t (mk_int t a) (mk_int t b).
Proof.
  unfold w_sub. apply mk_int_congr. cbn [ival mk_int]. rewrite (Zminus_mod (wrap t a)), !wrap_mod, <- Zminus_mod.
  reflexivity.
Qed.

Lemma wmul_hom a b : mk_int t (a * b) = w_mul t (mk_int t a) (mk_int t b).
Proof.
  unfold w_mul. apply mk_int_congr. cbn [ival mk_int]. rewrite (Zmult_mod (wrap t a)), !wrap_mod, <- Zmult_mod.
  reflexivity.
Qed.

Lemma wopp_hom a : mk_int t (- a) = w_opp t (mk_int t a).
Proof.
  unfold w_opp. apply mk_int_congr. cbn [ival mk_int].
  replace (- a) with (0 - a) by lia. replace (- wrap t a) with (0 - wrap t a) by lia.
  rewrite (Zminus_mod 0 (wrap t a)), wrap_mod, <- Zminus_mod. reflexivity.
Qed.

Lemma sumn_hom (f : nat -> Z) n : mk_int t (@sumn Z_ring f n) = @sumn W (fun i => mk_int t (f i)) n.
Proof. induction n as [|n IH]; simpl; [reflexivity|]. rewrite wadd_hom, IH. reflexivity. Qed.

Lemma rpow_hom x n : mk_int t (@rpow Z_ring x n) = @rpow W (mk_int t x) n.
Proof. induction n as [|n IH]; simpl; [reflexivity|]. rewrite wmul_hom, IH. reflexivity. Qed.

Lemma of_nat_hom n : mk_int t (@of_nat Z_ring n) = @of_nat W n.
Proof. induction n as [|n IH]; cbn [of_nat]; [reflexivity|]. cbn [radd Z_ring]. rewrite wadd_hom, IH. reflexivity. Qed.

Lemma wred_padd p q : peq (wred (padd p q)) (padd (wred p) (wred q)).
Proof. intros d. apply wadd_hom. Qed.
Lemma wred_psub p q : peq (wred (psub p q)) (psub (wred p) (wred q)).
Proof. intros d. apply wsub_hom. Qed.
Lemma wred_popp p : peq (wred (popp p)) (popp (wred p)).
Proof. intros d. apply wopp_hom. Qed.
Lemma wred_pscale p c : peq (wred (pscale p c)) (pscale (wred p) (mk_int t c)).
Proof. intros d. apply wmul_hom. Qed.
Lemma wred_pmul p q : peq (wred (pmul p q)) (pmul (wred p) (wred q)).
Proof.
  intros d. unfold wred at 1, pmul at 1. rewrite sumn_hom. unfold pmul. apply sumn_ext.
  intros i _. cbn [rmul Z_ring]. rewrite wmul_hom. reflexivity.
Qed.
Lemma wred_ppow p n : peq (wred (ppow p n)) (ppow (wred p) n).
Proof.
  induction n as [|n IH]; cbn [ppow].
  - intros [|d]; reflexivity.
  - intros d. rewrite wred_pmul. apply (@pmul_ext W); [apply peq_refl|exact IH].
Qed.
Lemma wred_pderiv p : peq (wred (pderiv p)) (pderiv (wred p)).
Proof. intros d. unfold wred at 1, pderiv. cbn [rmul Z_ring]. rewrite wmul_hom, of_nat_hom. reflexivity. Qed.

Lemma wred_value p (x v : Z) : @is_value Z_ring p x v -> @is_value W (wred p) (mk_int t x) (mk_int t v).
Proof.
  intros (n & H & ->). exists n. split.
  - intros i Hi. unfold wred. rewrite H by exact Hi. reflexivity.
  - rewrite sumn_hom. apply sumn_ext. intros i _. cbn [rmul Z_ring]. rewrite wmul_hom, rpow_hom. reflexivity.
Qed.

(** The stored coefficients are already reduced. *)
Lemma dcoef_wred (l : list (int t)) : peq (@dcoef (int t) W (fun a => a) l) (wred (dcoef Z_ring ival l)).
Proof.
  intros d. unfold wred. induction l as [|c l IH]; [rewrite !dcoef_nil; reflexivity|].
  rewrite !dcoef_cons. destruct (Nat.eqb d (length l)); [|exact IH]. symmetry. apply mk_int_ival.
Qed.

Lemma dcoef_ival (l : list (int t)) d : ival (@dcoef (int t) W (fun a => a) l d) = dcoef Z_ring ival l d.
Proof.
  induction l as [|c l IH].
  - rewrite !dcoef_nil. apply ival_mk_int, in_range_iff. pose proof (imin_max t). simpl. lia.
  - rewrite !dcoef_cons. destruct (Nat.eqb d (length l)); auto.
Qed.

(** Reading a wrapping result in integers. *)
Lemma wred_result (l : list (int t)) p : peq (@dcoef (int t) W (fun a => a) l) (wred p) -> forall d, dcoef Z_ring ival l d = wrap t (p d).
Proof. intros H d. rewrite <- dcoef_ival, H. reflexivity. Qed.

End Wrap.
