(** Property C82: a number as a polynomial. *)

From Coq Require Import List NArith ZArith Reals Lia Bool Arith.
From Verif Require Import Base Num Spec SpecFacts Laws Terms Dense DenseFacts DenseMul DenseCalc Sparse SparseFacts SparseCalc Mono FixedFacts Coef Floats FloatCoef FloatDiv P_Struct P_FloatText.
From Flocq Require Import IEEE754.BinarySingleNaN.
Import ListNotations.
Local Open Scope nat_scope.

(** ** Specification *)

(** The coefficients of the constant [c]. *)
Definition const_pol {T} (O : num T) (c : T) (d : nat) : T := match d with 0 => c | S _ => zero O end.

(** Monomial::from(c), Polynomial::new(vec![c]), SparsePolynomial::from(vec![c]) and both
    from_terms(&[(c, 0)]) are the constant c, for every coefficient type with a zero. *)
Theorem C82_constant : forall T (O : num T) c, is_zero O (zero O) = true -> (1 <= n_max_len O)%N ->
  (forall x, exists y, add O (zero O) x = Ok y /\ if is_zero O x then is_zero O y = true else y = x) ->
  same_coefs O (mpol O (mono_from c)) (const_pol O c) /\
  (exists l, dense_new O [c] = Ok l /\ same_coefs O (dpol O l) (const_pol O c)) /\
  (exists l, dense_from_terms O [(c, 0%N)] = Ok l /\ same_coefs O (dpol O l) (const_pol O c)) /\
  (exists m, sparse_from_vec O [c] = Ok m /\ same_coefs O (spol O m) (const_pol O c)) /\
  (exists m, sparse_from_terms O [(c, 0%N)] = Ok m /\ same_coefs O (spol O m) (const_pol O c)).
Proof.
  intros T O c Hz Hl Ha.
  assert (D : forall d, dpol O [c] d = const_pol O c d).
  { intros [|d]; [reflexivity|]. unfold dpol. rewrite cf_overflow by (cbn; lia). reflexivity. }
  split; [|split; [|split; [|split]]].
  - intros [|d]; left; reflexivity.
  - destruct (proj1 (C72_coefficients_kept T O Hz) [c]) as (r & E & H). exists r. split; [exact E|]. intros d. rewrite <- D. apply H.
  - destruct (Ha c) as (y & Hy & Y). exists [y]. split.
    + unfold dense_from_terms, dense_add_term, dense_zero. cbn [foldM fst snd].
      change (uadd (n_chk O) 0 1) with (@Ok N 1%N). cbn [bind]. unfold vec_grow. cbn.
      replace (1 <=? n_max_len O)%N with true by (symmetry; apply N.leb_le, Hl). cbn.
      change (Pos.to_nat 1) with 1. cbn [repeat app]. change (len [zero O]) with 1%N. unfold usub. cbn. unfold update. cbn. rewrite Hy. reflexivity.
    + intros [|d]; [|left; unfold dpol; rewrite cf_overflow by (cbn; lia); reflexivity]. cbn.
      destruct (is_zero O c) eqn:E; [right; auto|left; exact Y].
  - destruct (proj1 (proj2 (C72_coefficients_kept T O Hz)) [c]) as (r & E & H). exists r. split; [exact E|]. intros d. rewrite <- D. apply H.
  - unfold sparse_from_terms, sparse_add_term. cbn [foldM fst snd]. destruct (is_zero O c) eqn:E; cbn.
    + eexists. split; [reflexivity|]. intros [|d]; [right|left; reflexivity]. split; [exact Hz|exact E].
    + eexists. split; [reflexivity|]. intros [|d]; left; reflexivity.
Qed.

(** The integer types and the floats are such types. *)
Theorem C82_types : (forall chk t, let O := int_num chk t in is_zero O (zero O) = true /\ (1 <= n_max_len O)%N /\
     forall x, exists y, add O (zero O) x = Ok y /\ if is_zero O x then is_zero O y = true else y = x) /\
  (forall chk f powi, let O := float_num chk f powi in is_zero O (zero O) = true /\ (1 <= n_max_len O)%N /\
     forall x, exists y, add O (zero O) x = Ok y /\ if is_zero O x then is_zero O y = true else y = x).
Proof.
  split.
  - intros chk t O. split; [destruct t; reflexivity|].
    split; [destruct t; vm_compute; discriminate|].
    intros x. exists x. assert (E : add O (zero O) x = Ok x).
    { unfold O. cbn [add zero int_num]. replace (ival (mk_int t 0) + ival x)%Z with (ival x) by (destruct t; reflexivity).
      rewrite arith_in_range by apply ival_ok. rewrite mk_int_ival. reflexivity. }
    rewrite E. split; [reflexivity|]. destruct (is_zero O x) eqn:Z; reflexivity || exact Z.
  - intros chk f powi O. split; [apply float_zero|]. split; [destruct f; vm_compute; discriminate|].
    intros x. exists (fadd (fzero f) x). split; [reflexivity|]. cbn [is_zero O float_num].
    destruct x as [s|[]| |[] m e H]; try reflexivity. destruct s; reflexivity.
Qed.

Lemma fmul_one_r f (c : flt f) : fmul c (f_of_Z f 1) = c.
Proof.
  destruct (one_value f 1 ltac:(lia)) as [F1 V1]. destruct (is_finite c) eqn:Fc.
  - destruct (fmul_one f (f_of_Z f 1) c F1 Fc V1) as [F2 V2]. rewrite fmul_comm.
    apply B2R_Bsign_inj; [exact F2|exact Fc|exact V2|].
    pose proof (Bmult_correct _ _ _ _ mode_NE (f_of_Z f 1) c) as K. replace (B2R (f_of_Z f 1) * B2R c)%R with (B2R c) in K by (rewrite V1; ring).
    rewrite rnd_B2R, lt_emax in K. destruct K as (_ & _ & K). unfold fmul in *.
    etransitivity; [apply K; destruct (Bmult _ _ _); try reflexivity; discriminate F2|].
    replace (Bsign (f_of_Z f 1)) with false by (destruct f; vm_compute; reflexivity). apply xorb_false_l.
  - destruct c as [s|s| |s m e H]; try discriminate Fc; destruct f; try destruct s; reflexivity.
Qed.

(** The value of a constant monomial is the constant, at every point. *)
Theorem C82_value : (forall T (O : num T) R den, lawful O R den -> forall c x r, mono_eval O (mono_from c) x = Ok r -> r = c) /\
  (forall chk f (powi : flt f -> N -> flt f) c x, powi x 0%N = f_of_Z f 1 -> mono_eval (float_num chk f powi) (mono_from c) x = Ok c).
Proof.
  split.
  - intros T O R den L c x r H. apply (lw_inj _ _ _ L).
    assert (K : is_value (mpoly R den (mono_from c)) (den x) (den r)) by (apply (mono_eval_value O R den L); [reflexivity|exact H]).
    refine (is_value_fun _ _ _ _ K _). pose proof (is_value_pmono (den c) 0 (den x)) as Q. cbn [rpow] in Q.
    replace (rmul (den c) r1) with (den c) in Q by (destruct (r_theory R); congruence). exact Q.
  - intros chk f powi c x H. unfold mono_eval, mono_from. cbn [mcoef mdeg upow mul float_num bind]. rewrite H, fmul_one_r. reflexivity.
Qed.

(** A case: 7 as an i8 polynomial, in every representation. *)
Example C82_case : let O := int_num true I8 in let c := mk_int I8 7 in
  mono_from c = MkMono c 0 /\ dense_new O [c] = Ok [c] /\ dense_from_terms O [(c, 0%N)] = Ok [c] /\
  sparse_from_vec O [c] = Ok [(0%N, c)] /\ sparse_from_terms O [(c, 0%N)] = Ok [(0%N, c)] /\
  mono_eval O (mono_from c) (mk_int I8 100) = Ok c.
Proof. repeat split; vm_compute; reflexivity. Qed.

Print Assumptions C82_constant.
Print Assumptions C82_types.
Print Assumptions C82_value.
