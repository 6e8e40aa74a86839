(** Programs composed of API calls on polynomials, their mathematical meaning, and a proof that
    running them computes that meaning.  Not a model of further code: [drun] and [srun] only
    call the operations modelled in Dense.v and Sparse.v. *)

From Coq Require Import List NArith ZArith Lia Bool Arith.
From Coq Require Import ZifyBool ZifyNat ZifyN.
From Verif Require Import Base Num Spec SpecFacts Laws Terms Dense DenseFacts DenseArith DenseMul DenseCalc DenseShift.
From Verif Require Import Sparse SparseFacts SparseArith SparseCalc P_Dense1 P_Dense2 P_Sparse1 P_Sparse2.
Import ListNotations.

(** A program over variables and constants of type [T].  The flags choose between variants of an
    operator: [upd] = the assigning form, [ref] = by reference. *)
Inductive pexpr (T : Type) :=
| EVar (i : nat)
| EAdd (upd : bool) (a b : pexpr T)
| ESub (ref : bool) (a b : pexpr T)
| ENeg (a : pexpr T)
| EMul (ref : bool) (a b : pexpr T)
| EScale (upd : bool) (a : pexpr T) (c : T)
| EPow (a : pexpr T) (e : N)
| EDeriv (a : pexpr T)
| EShift (upd lft : bool) (a : pexpr T) (k : Z).
Arguments EVar {T}. Arguments EAdd {T}. Arguments ESub {T}. Arguments ENeg {T}. Arguments EMul {T}.
Arguments EScale {T}. Arguments EPow {T}. Arguments EDeriv {T}. Arguments EShift {T}.

(** ** Meaning *)
Section Meaning.
Context {T : Type} (R : comring) (den : T -> car R).

Fixpoint meaning (env : nat -> poly R) (e : pexpr T) : poly R :=
  match e with
  | EVar i => env i
  | EAdd _ a b => padd (meaning env a) (meaning env b)
  | ESub _ a b => psub (meaning env a) (meaning env b)
  | ENeg a => popp (meaning env a)
  | EMul _ a b => pmul (meaning env a) (meaning env b)
  | EScale _ a c => pscale (meaning env a) (den c)
  | EPow a n => ppow (meaning env a) (N.to_nat n)
  | EDeriv a => pderiv (meaning env a)
  | EShift _ lft a k => pshift lft k (meaning env a)
  end.

(** Shift amounts are [i32] values other than the minimum (see C17). *)
Fixpoint shifts_ok (e : pexpr T) : Prop :=
  match e with
  | EVar _ => True
  | EAdd _ a b | ESub _ a b | EMul _ a b => shifts_ok a /\ shifts_ok b
  | ENeg a | EScale _ a _ | EPow a _ | EDeriv a => shifts_ok a
  | EShift _ _ a k => i32_shift k /\ shifts_ok a
  end.

(** No shifts, and a bound on the degree of every intermediate result given bounds for the variables. *)
Fixpoint no_shift (e : pexpr T) : Prop :=
  match e with
  | EVar _ => True
  | EAdd _ a b | ESub _ a b | EMul _ a b => no_shift a /\ no_shift b
  | ENeg a | EScale _ a _ | EPow a _ | EDeriv a => no_shift a
  | EShift _ _ _ _ => False
  end.
Fixpoint edeg (dg : nat -> N) (e : pexpr T) : N :=
  match e with
  | EVar i => dg i
  | EAdd _ a b | ESub _ a b => N.max (edeg dg a) (edeg dg b)
  | EMul _ a b => (edeg dg a + edeg dg b)%N
  | ENeg a | EScale _ a _ | EDeriv a | EShift _ _ a _ => edeg dg a
  | EPow a n => (edeg dg a * N.max 1 n)%N
  end.
End Meaning.

(** ** Running *)
Section Run.
Context {T : Type} (O : num T).

Fixpoint drun (env : nat -> list T) (e : pexpr T) : res (list T) :=
  match e with
  | EVar i => Ok (env i)
  | EAdd upd a b => x <- drun env a ;; y <- drun env b ;; if upd then dense_add_assign O x y else dense_add O x y
  | ESub ref a b => x <- drun env a ;; y <- drun env b ;; if ref then dense_sub_assign_ref O x y else dense_sub O x y
  | ENeg a => x <- drun env a ;; dense_neg O x
  | EMul ref a b => x <- drun env a ;; y <- drun env b ;; if ref then dense_mul_ref O x y else dense_mul O x y
  | EScale upd a c => x <- drun env a ;; if upd then dense_scale_assign O x c else dense_scale O x c
  | EPow a n => x <- drun env a ;; dense_pow O (1 + 2 * N.to_nat (N.size n)) x n
  | EDeriv a => x <- drun env a ;; dense_derivative O x
  | EShift upd lft a k => x <- drun env a ;; if upd then dense_shift_assign O 2 lft x k else dense_shift O 2 lft x k
  end.

Fixpoint srun (env : nat -> bmap T) (e : pexpr T) : res (bmap T) :=
  match e with
  | EVar i => Ok (env i)
  | EAdd upd a b => x <- srun env a ;; y <- srun env b ;; if upd then sparse_add_assign O x y else sparse_add O x y
  | ESub _ a b => x <- srun env a ;; y <- srun env b ;; sparse_sub O x y
  | ENeg a => x <- srun env a ;; sparse_neg O x
  | EMul _ a b => x <- srun env a ;; y <- srun env b ;; sparse_mul O x y
  | EScale upd a c => x <- srun env a ;; if upd then sparse_scale_assign O x c else sparse_scale O x c
  | EPow a n => x <- srun env a ;; sparse_pow O (1 + 2 * N.to_nat (N.size n)) x n
  | EDeriv a => x <- srun env a ;; sparse_derivative O x
  | EShift _ lft a k => x <- srun env a ;; sparse_shift O 2 lft x k
  end.
End Run.

(** ** Correctness *)

Section DenseLen.
Context {T : Type} (O : num T).

Lemma vec_ok_le (a b : list T) : vec_ok O b -> (length a <= length b)%nat -> vec_ok O a.
Proof. unfold vec_ok, len. lia. Qed.

Lemma strip_le (l : list T) : (length (strip O l) <= length l)%nat.
Proof. unfold strip. rewrite skipn_length. lia. Qed.

Lemma dense_add_assign_ok a b r : vec_ok O a -> vec_ok O b -> dense_add_assign O a b = Ok r -> vec_ok O r.
Proof.
  intros Ha Hb H. unfold dense_add_assign in H. destruct (Nat.ltb (length a) (length b)); apply zip_suffix_len in H;
    unfold vec_ok, len in *; rewrite H; assumption.
Qed.

Lemma dense_sub_assign_ok a b r : vec_ok O a -> vec_ok O b -> dense_sub O a b = Ok r \/ dense_sub_assign_ref O a b = Ok r -> vec_ok O r.
Proof.
  intros Ha Hb H. unfold dense_sub, dense_sub_assign, dense_sub_assign_ref in H.
  destruct (Nat.ltb_spec (length a) (length b)) as [Hl|Hl].
  - assert (K : length r = length b).
    { destruct H as [H|H]; inv_ok.
      - apply mapM_length in E. apply zipM_length in E0. rewrite app_length, E, E0, firstn_length, skipn_length. lia.
      - apply mapM_length in E0. apply zipM_length in E. rewrite app_length, E, E0, firstn_length. lia. }
    unfold vec_ok, len in *. rewrite K. exact Hb.
  - destruct H as [H|H]; apply zip_suffix_len in H; unfold vec_ok, len in *; rewrite H; exact Ha.
Qed.

Lemma mapM_ok {f : T -> res T} a r : vec_ok O a -> mapM f a = Ok r -> vec_ok O r.
Proof. intros Ha H. apply mapM_length in H. unfold vec_ok, len in *. rewrite H. exact Ha. Qed.

Lemma extend_zeros_ok a k r : extend_zeros O a k = Ok r -> vec_ok O r.
Proof.
  unfold extend_zeros, vec_repeat, vec_grow. intros H.
  destruct (N.leb_spec k (n_max_len O)); [|discriminate]. cbn [bind] in H.
  destruct (N.leb_spec (len a + k) (n_max_len O)); [|discriminate]. cbn [bind] in H. injection H as <-.
  unfold vec_ok, len in *. rewrite app_length, repeat_length. lia.
Qed.

Lemma slice_le {A} (l : list A) i j r : slice l i j = Ok r -> (length r <= length l)%nat.
Proof.
  unfold slice. destruct ((i <=? j)%nat && (j <=? length l)%nat); [|discriminate]. intros H. injection H as <-.
  rewrite firstn_length, skipn_length. lia.
Qed.

Lemma dense_shift_ok fuel : forall lft a k r, vec_ok O a ->
  dense_shift O fuel lft a k = Ok r \/ dense_shift_assign O fuel lft a k = Ok r -> vec_ok O r.
Proof.
  induction fuel as [|fuel IH]; intros lft a k r Ha H; [destruct H; discriminate|].
  destruct H as [H|H]; cbn [dense_shift dense_shift_assign] in H; destruct (k <? 0)%Z.
  1,3: inv_ok; eapply IH; eauto.
  - destruct lft.
    + inv_ok. eapply extend_zeros_ok. eassumption.
    + destruct (len a <? Z.to_N k)%N; [injection H as <-; unfold vec_ok, len; simpl; lia|]. apply slice_le in H.
      eapply vec_ok_le; eassumption.
  - destruct lft.
    + eapply extend_zeros_ok. eassumption.
    + destruct (len a <? Z.to_N k)%N; [injection H as <-; unfold vec_ok, len; simpl; lia|]. apply slice_le in H.
      eapply vec_ok_le; eassumption.
Qed.
End DenseLen.

Section Correct.
Context {T : Type} (O : num T) (R : comring) (den : T -> car R) (L : lawful O R den).
Notation dc := (dcoef R den).
Notation sc := (scoef R den).
Notation ev := (meaning R den).

Lemma padd_ext (a a' b b' : poly R) : peq a a' -> peq b b' -> peq (padd a b) (padd a' b').
Proof. intros H1 H2 d. unfold padd. rewrite H1, H2. reflexivity. Qed.
Lemma psub_ext (a a' b b' : poly R) : peq a a' -> peq b b' -> peq (psub a b) (psub a' b').
Proof. intros H1 H2 d. unfold psub. rewrite H1, H2. reflexivity. Qed.
Lemma popp_ext (a a' : poly R) : peq a a' -> peq (popp a) (popp a').
Proof. intros H1 d. unfold popp. rewrite H1. reflexivity. Qed.
Lemma pscale_ext (a a' : poly R) c : peq a a' -> peq (pscale a c) (pscale a' c).
Proof. intros H1 d. unfold pscale. rewrite H1. reflexivity. Qed.
Lemma pderiv_ext (a a' : poly R) : peq a a' -> peq (pderiv a) (pderiv a').
Proof. intros H1 d. unfold pderiv. rewrite H1. reflexivity. Qed.
Lemma pshift_ext lft k (a a' : poly R) : peq a a' -> peq (pshift lft k a) (pshift lft k a').
Proof.
  intros H1 d. unfold pshift, pshl, pshr. destruct (0 <=? _)%Z; [destruct (Nat.ltb d _); [reflexivity|]|]; apply H1.
Qed.

Lemma drun_ok (Hc : (1 <= n_max_len O)%N) env e : (forall i, vec_ok O (env i)) -> shifts_ok e -> forall r, drun O env e = Ok r ->
  vec_ok O r /\ peq (dc r) (ev (fun i => dc (env i)) e).
Proof.
  intros He. induction e as [i|upd a IHa b IHb|ref a IHa b IHb|a IHa|ref a IHa b IHb|upd a IHa c|a IHa n|a IHa|upd lft a IHa k];
    cbn [shifts_ok drun meaning]; intros Hs r H.
  - inv_ok. split; [apply He|apply peq_refl].
  - inv_ok. destruct (IHa (proj1 Hs) _ E) as [V1 P1]. destruct (IHb (proj2 Hs) _ E0) as [V2 P2]. split.
    + destruct upd; [exact (dense_add_assign_ok O _ _ _ V1 V2 H)|]. rewrite dense_add_assign_strip in H. inv_ok.
      apply strip_vec_ok. eapply dense_add_assign_ok; [exact V1|exact V2|eassumption].
    + eapply peq_trans; [|apply padd_ext; [exact P1|exact P2]]. apply (C06_dense_add _ _ _ _ L). destruct upd; auto.
  - inv_ok. destruct (IHa (proj1 Hs) _ E) as [V1 P1]. destruct (IHb (proj2 Hs) _ E0) as [V2 P2]. split.
    + eapply dense_sub_assign_ok; [exact V1|exact V2|]. destruct ref; eauto.
    + eapply peq_trans; [|apply psub_ext; [exact P1|exact P2]]. apply (C07_dense_sub _ _ _ _ L). destruct ref; auto.
  - inv_ok. destruct (IHa Hs _ E) as [V1 P1]. split; [exact (mapM_ok O _ _ V1 H)|].
    eapply peq_trans; [|apply popp_ext, P1]. apply (C07_dense_neg _ _ _ _ L). exact H.
  - inv_ok. destruct (IHa (proj1 Hs) _ E) as [V1 P1]. destruct (IHb (proj2 Hs) _ E0) as [V2 P2]. split.
    + destruct ref; [exact (dense_mul_ref_vec_ok _ _ _ L _ _ _ V1 V2 H)|exact (slice_mul_vec_ok _ _ _ L _ _ _ V1 V2 H)].
    + eapply peq_trans; [|apply pmul_ext; [exact P1|exact P2]]. apply (C08_dense_mul _ _ _ _ L); auto. destruct ref; auto.
  - inv_ok. destruct (IHa Hs _ E) as [V1 P1]. split.
    + destruct upd; [exact (mapM_ok O _ _ V1 H)|]. unfold dense_scale in H. inv_ok. rewrite dense_new_ok in H. injection H as <-.
      apply strip_vec_ok. eapply mapM_ok; [exact V1|eassumption].
    + eapply peq_trans; [|apply pscale_ext, P1]. apply (C11_dense_scale _ _ _ _ L). destruct upd; auto.
  - inv_ok. destruct (IHa Hs _ E) as [V1 P1]. destruct (dense_pow_coef_gen O R den L _ _ _ _ V1 Hc H) as [V P]. split; [exact V|].
    eapply peq_trans; [exact P|]. apply ppow_ext, P1.
  - inv_ok. destruct (IHa Hs _ E) as [V1 P1]. split; [eapply dense_derivative_vec_ok; eassumption|].
    eapply peq_trans; [|apply pderiv_ext, P1]. apply (C13_dense_derivative _ _ _ _ L); assumption.
  - inv_ok. destruct (IHa (proj2 Hs) _ E) as [V1 P1]. split.
    + eapply dense_shift_ok; [exact V1|]. destruct upd; eauto.
    + eapply peq_trans; [|apply pshift_ext, P1]. apply (C15_dense_shift _ _ _ _ L 0 lft); [apply Hs|]. destruct upd; auto.
Qed.

Lemma meaning_pbound env dg e : (forall i, pbound (env i) (dg i)) -> no_shift e -> pbound (ev env e) (edeg dg e).
Proof.
  intros He. induction e as [i|upd a IHa b IHb|ref a IHa b IHb|a IHa|ref a IHa b IHb|upd a IHa c|a IHa n|a IHa|upd lft a IHa k];
    cbn [no_shift edeg meaning]; intros Hs; try contradiction.
  - apply He.
  - destruct Hs as [H1 H2]. intros d Hd. unfold padd. rewrite (IHa H1), (IHb H2) by lia. apply radd_0_l.
  - destruct Hs as [H1 H2]. intros d Hd. unfold psub. rewrite (IHa H1), (IHb H2) by lia. apply rsub_0_r.
  - intros d Hd. unfold popp. rewrite (IHa Hs) by lia. apply ropp_0.
  - destruct Hs as [H1 H2]. apply pbound_pmul; auto.
  - intros d Hd. unfold pscale. rewrite (IHa Hs) by lia. apply rmul_0_l.
  - eapply pbound_mono; [|apply pbound_ppow, IHa, Hs]. rewrite N2Nat.id. nia.
  - intros d Hd. unfold pderiv. rewrite (IHa Hs) by lia. apply rmul_0_r.
Qed.

Lemma srun_ok env dg e : (forall i, swf (env i)) -> shifts_ok e ->
  (n_chk O = true \/ no_shift e /\ (forall i, pbound (sc (env i)) (dg i)) /\ (edeg dg e <= USIZE_MAX)%N) ->
  forall r, srun O env e = Ok r -> swf r /\ peq (sc r) (ev (fun i => sc (env i)) e).
Proof.
  intros He. induction e as [i|upd a IHa b IHb|ref a IHa b IHb|a IHa|ref a IHa b IHb|upd a IHa c|a IHa n|a IHa|upd lft a IHa k];
    cbn [shifts_ok no_shift edeg srun meaning]; intros Hs Hk r H.
  - inv_ok. split; [apply He|apply peq_refl].
  - inv_ok. destruct (IHa (proj1 Hs)) with (r := v) as [V1 P1]; [destruct Hk as [|(? & ? & ?)]; [tauto|right; repeat split; try tauto; lia]|exact E|].
    destruct (IHb (proj2 Hs)) with (r := v0) as [V2 P2]; [destruct Hk as [|(? & ? & ?)]; [tauto|right; repeat split; try tauto; lia]|exact E0|].
    destruct (C23_sparse_add _ _ _ _ L v v0 r V1 V2) as [W P]; [destruct upd; auto|]. split; [exact W|].
    eapply peq_trans; [exact P|]. apply padd_ext; assumption.
  - inv_ok. destruct (IHa (proj1 Hs)) with (r := v) as [V1 P1]; [destruct Hk as [|(? & ? & ?)]; [tauto|right; repeat split; try tauto; lia]|exact E|].
    destruct (IHb (proj2 Hs)) with (r := v0) as [V2 P2]; [destruct Hk as [|(? & ? & ?)]; [tauto|right; repeat split; try tauto; lia]|exact E0|].
    destruct (C23_sparse_sub _ _ _ _ L v v0 r V1 V2 H) as [W P]. split; [exact W|].
    eapply peq_trans; [exact P|]. apply psub_ext; assumption.
  - inv_ok. destruct (IHa Hs Hk v E) as [V1 P1]. destruct (C23_sparse_neg _ _ _ _ L v r V1 H) as [W P]. split; [exact W|].
    eapply peq_trans; [exact P|]. apply popp_ext, P1.
  - inv_ok. destruct (IHa (proj1 Hs)) with (r := v) as [V1 P1]; [destruct Hk as [|(? & ? & ?)]; [tauto|right; repeat split; try tauto; lia]|exact E|].
    destruct (IHb (proj2 Hs)) with (r := v0) as [V2 P2]; [destruct Hk as [|(? & ? & ?)]; [tauto|right; repeat split; try tauto; lia]|exact E0|].
    destruct (C24_sparse_mul _ _ _ _ L v v0 r V1 V2) as [W P]; [|exact H|].
    + destruct Hk as [Hk|((N1 & N2) & Hb & Hd)]; [left; exact Hk|]. right. exists (edeg dg a), (edeg dg b). split; [|split; [|exact Hd]].
      * eapply pbound_ext; [apply peq_sym, P1|]. apply meaning_pbound; assumption.
      * eapply pbound_ext; [apply peq_sym, P2|]. apply meaning_pbound; assumption.
    + split; [exact W|]. eapply peq_trans; [exact P|]. apply pmul_ext; assumption.
  - inv_ok. destruct (IHa Hs Hk v E) as [V1 P1]. destruct (C11_sparse_scale _ _ _ _ L v c r V1) as [W P]; [destruct upd; auto|].
    split; [exact W|]. eapply peq_trans; [exact P|]. apply pscale_ext, P1.
  - inv_ok. destruct (IHa Hs) with (r := v) as [V1 P1]; [destruct Hk as [|(? & ? & ?)]; [tauto|right; repeat split; try tauto; nia]|exact E|].
    destruct (C10_sparse_pow _ _ _ _ L (1 + 2 * N.to_nat (N.size n)) v n r V1) as [W P]; [|exact H|].
    + destruct Hk as [Hk|(N1 & Hb & Hd)]; [left; exact Hk|]. right. exists (edeg dg a). split; [|nia].
      eapply pbound_ext; [apply peq_sym, P1|]. apply meaning_pbound; assumption.
    + split; [exact W|]. eapply peq_trans; [exact P|]. apply ppow_ext, P1.
  - inv_ok. destruct (IHa Hs Hk v E) as [V1 P1]. destruct (C13_sparse_derivative _ _ _ _ L v r V1 H) as [W P]. split; [exact W|].
    eapply peq_trans; [exact P|]. apply pderiv_ext, P1.
  - inv_ok. destruct Hk as [Hk|(? & _)]; [|contradiction].
    destruct (IHa (proj2 Hs) (or_introl Hk) v E) as [V1 P1].
    destruct (C15_sparse_shift _ _ _ _ L 0 lft v k r V1 (proj1 Hs) (or_introl Hk) H) as [W P]. split; [exact W|].
    eapply peq_trans; [exact P|]. apply pshift_ext, P1.
Qed.
End Correct.

(** ** Values *)
Section Values.
Context {T : Type} (R : comring) (den : T -> car R).

(** The value of a program at a point, from the values of its variables; [None] where the value
    of the result is not determined by them (derivatives, shifts that drop terms). *)
Fixpoint value_of (x : car R) (vals : nat -> car R) (e : pexpr T) : option (car R) :=
  match e with
  | EVar i => Some (vals i)
  | EAdd _ a b => match value_of x vals a, value_of x vals b with Some u, Some v => Some (radd u v) | _, _ => None end
  | ESub _ a b => match value_of x vals a, value_of x vals b with Some u, Some v => Some (rsub u v) | _, _ => None end
  | ENeg a => option_map ropp (value_of x vals a)
  | EMul _ a b => match value_of x vals a, value_of x vals b with Some u, Some v => Some (rmul u v) | _, _ => None end
  | EScale _ a c => option_map (fun u => rmul u (den c)) (value_of x vals a)
  | EPow a n => option_map (fun u => rpow u (N.to_nat n)) (value_of x vals a)
  | EDeriv _ => None
  | EShift _ lft a k =>
    let s := if lft then k else (- k)%Z in
    if (0 <=? s)%Z then option_map (fun u => rmul (rpow x (Z.to_nat s)) u) (value_of x vals a) else None
  end.

Lemma is_value_pshl (a : poly R) k x v : is_value a x v -> is_value (pshl a k) x (rmul (rpow x k) v).
Proof.
  intros H. eapply is_value_ext; [apply peq_sym, pshl_pmul|].
  replace (rpow x k) with (rmul r1 (rpow x k)) by apply rmul_1_l. apply is_value_pmul; [apply is_value_pmono|exact H].
Qed.

Lemma meaning_value env x vals e : (forall i, is_value (env i) x (vals i)) ->
  forall v, value_of x vals e = Some v -> is_value (meaning R den env e) x v.
Proof.
  intros He. induction e as [i|upd a IHa b IHb|ref a IHa b IHb|a IHa|ref a IHa b IHb|upd a IHa c|a IHa n|a IHa|upd lft a IHa k];
    cbn [value_of meaning]; intros v H.
  - injection H as <-. apply He.
  - destruct (value_of x vals a), (value_of x vals b); try discriminate. injection H as <-. apply is_value_padd; auto.
  - destruct (value_of x vals a), (value_of x vals b); try discriminate. injection H as <-. apply is_value_psub; auto.
  - destruct (value_of x vals a); try discriminate. injection H as <-. apply is_value_popp; auto.
  - destruct (value_of x vals a), (value_of x vals b); try discriminate. injection H as <-. apply is_value_pmul; auto.
  - destruct (value_of x vals a); try discriminate. injection H as <-. apply is_value_pscale; auto.
  - destruct (value_of x vals a); try discriminate. injection H as <-. apply is_value_ppow; auto.
  - discriminate.
  - unfold pshift. destruct (0 <=? _)%Z; [|discriminate]. destruct (value_of x vals a); try discriminate. injection H as <-.
    apply is_value_pshl; auto.
Qed.
End Values.
