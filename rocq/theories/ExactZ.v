(** A proof device, not part of the modelled code: the integers of absolute value at most
    2^prec with checked arithmetic.  Whatever they compute, the float type computes too,
    exactly. *)

From Coq Require Import List NArith ZArith Lia Bool Arith Reals Eqdep_dec.
From Coq Require Import ZifyBool ZifyNat ZifyN.
From Flocq Require Import IEEE754.BinarySingleNaN.
From Verif Require Import Base Num Spec SpecFacts Laws Terms Floats FloatFacts Sim SimInst.
Import ListNotations.
Local Open Scope Z_scope.

Section ExactZ.
Context (f : fty).
Definition zM : Z := 2 ^ fprec f.

Record zint := MkZ { zv : Z; zok : (Z.abs zv <=? zM) = true }.

Lemma zint_eq (a b : zint) : zv a = zv b -> a = b.
Proof. destruct a as [x p], b as [y q]. simpl. intros ->. f_equal. apply UIP_dec, bool_dec. Qed.

Lemma zM_pos : 1 <= zM.
Proof. unfold zM. destruct f; vm_compute; discriminate. Qed.

Definition zarith (z : Z) : res zint :=
  match bool_dec (Z.abs z <=? zM) true with
  | left H => Ok (MkZ z H)
  | right _ => Panic POverflow
  end.
Definition zopt (z : Z) : option zint :=
  match bool_dec (Z.abs z <=? zM) true with left H => Some (MkZ z H) | right _ => None end.

Lemma zarith_ok z c : zarith z = Ok c <-> Z.abs z <= zM /\ zv c = z.
Proof.
  unfold zarith. destruct (bool_dec (Z.abs z <=? zM) true) as [H|H]; split.
  - intros E. split; [clear E; lia|]. injection E as <-. reflexivity.
  - intros [_ E]. f_equal. apply zint_eq. simpl. auto.
  - discriminate.
  - intros [K _]. exfalso. lia.
Qed.
Lemma zarith_ex z : (exists c, zarith z = Ok c) <-> Z.abs z <= zM.
Proof.
  split.
  - intros (c & H). apply zarith_ok in H. tauto.
  - intros H. assert (K : (Z.abs z <=? zM) = true) by lia. exists (MkZ z K). apply zarith_ok. split; [exact H|reflexivity].
Qed.
Lemma zopt_some z c : zopt z = Some c -> zv c = z.
Proof. unfold zopt. destruct (bool_dec _ _); [|discriminate]. intros E. injection E as <-. reflexivity. Qed.
Lemma zopt_ex z : Z.abs z <= zM -> exists c, zopt z = Some c.
Proof. intros H. unfold zopt. destruct (bool_dec _ _) as [K|K]; [eauto|]. exfalso. lia. Qed.

Lemma zzero_ok : (Z.abs 0 <=? zM) = true.
Proof. pose proof zM_pos. lia. Qed.
Lemma zone_ok : (Z.abs 1 <=? zM) = true.
Proof. pose proof zM_pos. lia. Qed.

(** Every integer-valued float in the range has a counterpart. *)
Lemma z_lift y z : fint y z -> Z.abs z <= zM -> exists a, zv a = z /\ fden zv f a y.
Proof.
  intros H Hz. assert (K : (Z.abs z <=? zM) = true) by lia. exists (MkZ z K). split; [reflexivity|exact H].
Qed.

Context (chk : bool) (powi : flt f -> N -> flt f).

Definition znum : num zint := {|
  n_chk := chk;
  n_max_len := n_max_len (float_num chk f powi);
  zero := MkZ 0 zzero_ok;
  one := MkZ 1 zone_ok;
  is_zero := fun a => zv a =? 0;
  add := fun a b => zarith (zv a + zv b);
  sub := fun a b => zarith (zv a - zv b);
  mul := fun a b => zarith (zv a * zv b);
  div := fun _ _ => Panic PDivZero;
  neg := fun a => zarith (- zv a);
  eqb := fun a b => zv a =? zv b;
  is_pos := fun a => 0 <? zv a;
  absv := fun a => zarith (Z.abs (zv a));
  is_neg_one := fun a => zv a =? -1;
  upow := fun _ _ => Panic POverflow;
  can_negate := true;
  of_cont := fun n => if (n <=? f_cont_limit f)%N then zopt (Z.of_N n) else None;
  of_exact := fun n => zopt (Z.of_N n)
|}.

Theorem z_lawful : lawful znum Z_ring zv.
Proof.
  constructor; cbn.
  - apply zint_eq.
  - reflexivity.
  - reflexivity.
  - intros a. lia.
  - intros a b. lia.
  - intros a b c H. apply zarith_ok in H. tauto.
  - intros a b c H. apply zarith_ok in H. tauto.
  - intros a b c H. apply zarith_ok in H. tauto.
  - intros a c H. apply zarith_ok in H. tauto.
  - discriminate.
  - intros n c _ H. destruct (n <=? f_cont_limit f)%N; [|discriminate]. apply zopt_some in H. rewrite Z_of_nat_ring. lia.
  - intros n c _ H. apply zopt_some in H. rewrite Z_of_nat_ring. lia.
  - destruct f; vm_compute; discriminate.
Qed.

Theorem z_fits : fits_ops znum Z_ring zv (fun z => Z.abs z <= zM).
Proof.
  constructor; cbn; intros; [apply Z.leb_le, (zok a)|apply zarith_ex..].
Qed.

Lemma z_fit z : Z.abs z <= zM -> True \/ 0 <= z -> Z.abs z <= zM.
Proof. auto. Qed.
Lemma z_sgn : True \/ forall a, 0 <= zv a.
Proof. auto. Qed.
Lemma z_up a : zv a <= zM.
Proof. pose proof (zok a). lia. Qed.

Theorem z_sim : sim znum (float_num chk f powi) (fden zv f) false.
Proof.
  apply sim_exact_float.
  - apply z_lawful.
  - right. reflexivity.
  - right. cbn. lia.
  - intros a. pose proof (zok a). unfold zM in *. lia.
  - reflexivity.
  - reflexivity.
  - intros a c H. cbn in H. apply zarith_ok in H. tauto.
  - intros n a H. cbn in H. destruct (N.leb_spec n (f_cont_limit f)); [assumption|discriminate].
Qed.

End ExactZ.
