(** Properties C02-C05, C11, C27, C50 of the fixed-shape polynomials: [Monomial<N>],
    [LinearBinomial<N>], [QuadraticTrinomial<N>] and [ArrayPolynomial<N, SIZE>].

    [mpoly R den m] is the polynomial [coefficient * x^deg]; [bpoly R den b] and
    [tpoly R den b] read the coefficient arrays highest degree first, as does [dcoef R den a]
    for array polynomials. *)

From Coq Require Import List NArith ZArith Lia Bool Arith Sorted.
From Coq Require Import ZifyBool ZifyNat ZifyN.
From Verif Require Import Base Num Spec SpecFacts Laws Terms Dense.
From Verif Require Import DenseFacts DenseArith DenseCalc DenseShift DenseMut.
From Verif Require Import Sparse SparseFacts Mono Bino Trino ArrPoly FixedFacts P_Dense1.
Import ListNotations.

Section RingFacts.
Context (R : comring).
Add Ring Rring7 : (r_theory R).
Lemma radd_r0 (u : car R) : radd u r0 = u. Proof. ring. Qed.
Lemma rsub_r0 (u : car R) : rsub u r0 = u. Proof. ring. Qed.
Lemma rmul_0_l (u : car R) : rmul r0 u = r0. Proof. ring. Qed.
Lemma ropp_0 : @ropp R r0 = r0. Proof. ring. Qed.
Lemma rmul_comm (u v : car R) : rmul u v = rmul v u. Proof. ring. Qed.
Lemma rmul_1_l (u : car R) : rmul r1 u = u. Proof. ring. Qed.
End RingFacts.

Definition imono (t : ity) (c : Z) (d : N) : mono (int t) := MkMono (mk_int t c) d.
Definition ibino (t : ity) (a b : Z) : bino (int t) := MkBino (mk_int t a) (mk_int t b).
Definition itrino (t : ity) (a b c : Z) : trino (int t) := MkTrino (mk_int t a) (mk_int t b) (mk_int t c).
Definition mread {t} (m : mono (int t)) : Z * N := (ival (mcoef m), mdeg m).
Definition bread {t} (b : bino (int t)) : list Z := map ival (bino_list b).
Definition tread {t} (b : trino (int t)) : list Z := map ival (trino_list b).

(** ** C02 *)

Theorem C02_fixed_degree : forall T (O : num T) R den, lawful O R den ->
  (forall m, is_degree (mpoly R den m) (dn (mono_degree O m))) /\
  (forall b, is_degree (bpoly R den b) (dn (bino_degree O b))) /\
  (forall b, is_degree (tpoly R den b) (dn (trino_degree O b))) /\
  (forall a, is_degree (dcoef R den a) (dn (arr_degree O a))).
Proof.
  intros T O R den L. split; [|split; [|split]].
  - apply (mono_degree_spec O R den L). - apply (bino_degree_spec O R den L).
  - apply (trino_degree_spec O R den L). - apply (dense_degree_spec O R den L).
Qed.

Theorem C02_fixed_is_zero : forall T (O : num T) R den, lawful O R den ->
  (forall m, mono_is_zero O m = true <-> peq (mpoly R den m) pzero) /\
  (forall b, bino_is_zero O b = true <-> peq (bpoly R den b) pzero) /\
  (forall b, trino_is_zero O b = true <-> peq (tpoly R den b) pzero) /\
  peq (mpoly R den (mono_zero O)) pzero /\ (forall m, peq (mpoly R den (mono_set_to_zero O m)) pzero) /\
  peq (bpoly R den (bino_zero O)) pzero /\ peq (tpoly R den (trino_zero O)) pzero /\
  (forall n, peq (dcoef R den (arr_zero O n)) pzero).
Proof.
  intros T O R den L. split; [|split; [|split; [|split; [|split; [|split; [|split]]]]]].
  - intros m. apply degree_is_zero_iff, (mono_degree_spec O R den L).
  - intros m. apply degree_is_zero_iff, (bino_degree_spec O R den L).
  - intros m. apply degree_is_zero_iff, (trino_degree_spec O R den L).
  - apply pmono_zero, (lw_zero _ _ _ L).
  - intros m. apply pmono_zero, (lw_zero _ _ _ L).
  - intros d. rewrite bpoly_at. cbn. rewrite (lw_zero _ _ _ L). destruct d as [|[|d]]; reflexivity.
  - intros d. rewrite tpoly_at. cbn. rewrite (lw_zero _ _ _ L). destruct d as [|[|[|d]]]; reflexivity.
  - intros n d. unfold arr_zero. apply (dcoef_all_zero O R den L), (all_zero_repeat O R den L).
Qed.

Example C02_fixed_case :
  mono_degree (int_num true I8) (imono I8 0 7) = NegInf /\ mono_degree (int_num true I8) (imono I8 3 7) = Num 7
  /\ bino_degree (int_num true I8) (ibino I8 0 7) = Num 0 /\ trino_degree (int_num true I8) (itrino I8 0 5 7) = Num 1
  /\ arr_degree (int_num true I8) (map (mk_int I8) [0; 0; 4; 1; 0]%Z) = Num 2.
Proof. vm_compute. auto. Qed.

(** ** C03 *)

(** [ts] contains exactly the non-zero terms of [p], in strictly decreasing degree. *)
Definition lists_terms {T} (R : comring) (den : T -> car R) (p : poly R) (ts : list (T * N)) : Prop :=
  StronglySorted (fun a b => (snd b < snd a)%N) ts /\
  forall c d, In (c, d) ts <-> (den c <> r0 /\ p (N.to_nat d) = den c).

Lemma sorted_dterms {T} (R : comring) (den : T -> car R) ts :
  StronglySorted (fun a b => (snd b < snd a)%N) (dterms R den ts) <-> StronglySorted (fun a b => (snd b < snd a)%N) ts.
Proof.
  induction ts as [|[c d] ts IH]; simpl; [split; constructor|].
  split; intros H; apply StronglySorted_inv in H; destruct H as [H1 H2]; constructor.
  - apply IH, H1. - unfold dterms in H2. apply Forall_map in H2. exact H2.
  - apply IH, H1. - unfold dterms. apply Forall_map. exact H2.
Qed.

Lemma listing_lists {T} (O : num T) R den (L : lawful O R den) (p : poly R) ts :
  is_listing p (dterms R den ts) -> lists_terms R den p ts.
Proof.
  intros H2. split; [apply (sorted_dterms R den), H2|]. intros c d. split.
  - intros H. assert (I : In (den c, d) (dterms R den ts)) by (apply in_map_iff; exists (c, d); auto).
    apply (is_listing_in _ _ _ _ H2) in I. tauto.
  - intros H. apply (is_listing_in _ _ (den c) d H2) in H. apply in_map_iff in H.
    destruct H as ([c' d'] & E & I). injection E as E1 E2. apply (lw_inj _ _ _ L) in E1. subst. exact I.
Qed.

Theorem C03_fixed_listing : forall T (O : num T) R den, lawful O R den ->
  (forall m, lists_terms R den (mpoly R den m) (mono_terms O m)) /\
  (forall b, exists ts, bino_terms O b = Ok ts /\ lists_terms R den (bpoly R den b) ts) /\
  (forall b, exists ts, trino_terms O b = Ok ts /\ lists_terms R den (tpoly R den b) ts).
Proof.
  intros T O R den L. split; [|split].
  - intros m. apply (listing_lists O R den L), (mono_terms_spec O R den L).
  - intros b. destruct (enum_terms_listing O R den L 1 (bino_list b) 0 (or_intror eq_refl)) as (ts & A & B & _).
    exists ts. split; [exact A|]. apply (listing_lists O R den L), B.
  - intros b. destruct (enum_terms_listing O R den L 2 (trino_list b) 0 (or_intror eq_refl)) as (ts & A & B & _).
    exists ts. split; [exact A|]. apply (listing_lists O R den L), B.
Qed.

Example C03_fixed_case :
  rmap (map (fun t => (ival (fst t), snd t))) (trino_terms (int_num true I8) (itrino I8 4 0 (-7))) = Ok [(4%Z, 2%N); ((-7)%Z, 0%N)]
  /\ rmap (map (fun t => (ival (fst t), snd t))) (bino_terms (int_num true I8) (ibino I8 4 9)) = Ok [(4%Z, 1%N); (9%Z, 0%N)]
  /\ mono_terms (int_num true I8) (imono I8 0 9) = [].
Proof. vm_compute. auto. Qed.

(** ** C04 *)

Definition is_term_at {T} (R : comring) (den : T -> car R) (p : poly R) (d : N) (t : term T) : Prop :=
  match t with
  | ZeroTerm => p (N.to_nat d) = r0
  | TTerm c k => k = d /\ den c <> r0 /\ p (N.to_nat d) = den c
  end.

Lemma term_with_deg_at {T} (O : num T) R den (L : lawful O R den) l d :
  exists t, term_with_deg O l d = Ok t /\ is_term_at R den (dcoef R den l) d t.
Proof.
  destruct (term_with_deg_spec O R den L l d) as (t & H & S). exists t. split; [exact H|].
  destruct t; [exact S|]. simpl. destruct S as (A & B & C). split; [exact A|]. split; [|exact C].
  apply (is_zero_false_den O R den L), B.
Qed.

Theorem C04_fixed_term_with_degree : forall T (O : num T) R den, lawful O R den -> forall d,
  (forall m, is_term_at R den (mpoly R den m) d (mono_term_with_degree O m d)) /\
  (forall b, exists t, bino_term_with_degree O b d = Ok t /\ is_term_at R den (bpoly R den b) d t) /\
  (forall b, exists t, trino_term_with_degree O b d = Ok t /\ is_term_at R den (tpoly R den b) d t) /\
  (forall a, exists t, arr_term_with_degree O a d = Ok t /\ is_term_at R den (dcoef R den a) d t).
Proof.
  intros T O R den L d. split; [|split; [|split]]; try (intros; apply (term_with_deg_at O R den L)).
  intros m. unfold mono_term_with_degree, term_new, mpoly. destruct (N.eqb_spec d (mdeg m)) as [->|Hn].
  - destruct (is_zero O (mcoef m)) eqn:E; simpl; rewrite pmono_at.
    + apply (is_zero_den O R den L), E.
    + split; [reflexivity|]. split; [apply (is_zero_false_den O R den L), E|reflexivity].
  - simpl. apply pmono_off. lia.
Qed.

Example C04_fixed_case :
  (match mono_term_with_degree (int_num true I8) (imono I8 (-3) 9) 9 with TTerm c d => (ival c, d) = ((-3)%Z, 9%N) | _ => False end)
  /\ mono_term_with_degree (int_num true I8) (imono I8 (-3) 9) 8 = ZeroTerm
  /\ trino_term_with_degree (int_num true I8) (itrino I8 1 2 3) 7 = Ok ZeroTerm.
Proof. vm_compute. auto. Qed.

(** ** C05 *)

Theorem C05_fixed_eq : forall T (O : num T) R den, lawful O R den ->
  (forall a b, mono_eq O a b = true <-> peq (mpoly R den a) (mpoly R den b)) /\
  (forall a b, bino_eq O a b = true <-> peq (bpoly R den a) (bpoly R den b)) /\
  (forall a b, trino_eq O a b = true <-> peq (tpoly R den a) (tpoly R den b)) /\
  (forall a b, length a = length b -> arr_eq O a b = true <-> peq (dcoef R den a) (dcoef R den b)).
Proof.
  intros T O R den L. split; [|split; [|split]].
  - apply (mono_eq_spec O R den L). - apply (bino_eq_spec O R den L).
  - apply (trino_eq_spec O R den L). - apply (arr_eq_spec O R den L).
Qed.

Example C05_fixed_case : mono_eq (int_num true I8) (imono I8 0 9) (imono I8 0 3) = true
  /\ mono_eq (int_num true I8) (imono I8 1 9) (imono I8 1 3) = false
  /\ bino_eq (int_num true I8) (ibino I8 1 9) (ibino I8 1 8) = false.
Proof. vm_compute. auto. Qed.

(** ** C11 *)

Theorem C11_fixed_scale : forall T (O : num T) R den, lawful O R den -> forall c,
  (forall m r, mono_scale O m c = Ok r -> peq (mpoly R den r) (pscale (mpoly R den m) (den c))) /\
  (forall b r, bino_scale O b c = Ok r -> peq (bpoly R den r) (pscale (bpoly R den b) (den c))) /\
  (forall b r, trino_scale O b c = Ok r -> peq (tpoly R den r) (pscale (tpoly R den b) (den c))).
Proof.
  intros T O R den L c. split; [|split].
  - intros m r; apply (mono_scale_spec O R den L).
  - intros b r H d. apply (bino_map_spec R den (fun x => mul O x c) (fun x => rmul x (den c)) b r).
    + intros x y. apply (lw_mul _ _ _ L). + apply rmul_0_l. + exact H.
  - intros b r H d. apply (trino_map_spec R den (fun x => mul O x c) (fun x => rmul x (den c)) b r).
    + intros x y. apply (lw_mul _ _ _ L). + apply rmul_0_l. + exact H.
Qed.

Theorem C11_fixed_scale_returns : forall T (O : num T) R den fits, lawful O R den -> fits_ops O R den fits -> forall c,
  (forall m, (exists r, mono_scale O m c = Ok r) <-> forall d, fits (pscale (mpoly R den m) (den c) d)) /\
  (forall b, (exists r, bino_scale O b c = Ok r) <-> forall d, fits (pscale (bpoly R den b) (den c) d)) /\
  (forall b, (exists r, trino_scale O b c = Ok r) <-> forall d, fits (pscale (tpoly R den b) (den c) d)).
Proof.
  intros T O R den fits L F c.
  assert (F0 : fits (rmul r0 (den c))).
  { rewrite rmul_0_l, <- (lw_zero _ _ _ L). apply (fo_den _ _ _ _ F). }
  split; [|split].
  - intros m. unfold mono_scale, mpoly, pscale. split.
    + intros (r & H) d. inv_ok. unfold pmono. destruct (Nat.eqb d _); [|exact F0]. apply (fo_mul _ _ _ _ F). eauto.
    + intros H. specialize (H (N.to_nat (mdeg m))). rewrite pmono_at in H. apply (fo_mul _ _ _ _ F) in H.
      destruct H as (y & ->). simpl. eauto.
  - intros b. apply (bino_map_returns R den (fun x => mul O x c) (fun x => fits (rmul x (den c))) b F0).
    intros x. apply (fo_mul _ _ _ _ F).
  - intros b. apply (trino_map_returns R den (fun x => mul O x c) (fun x => fits (rmul x (den c))) b F0).
    intros x. apply (fo_mul _ _ _ _ F).
Qed.

(** Division by a scalar applies the type's own division to every coefficient. *)
Theorem C11_fixed_div_scalar : forall T (O : num T) c,
  (forall m r, mono_div_scalar O m c = Ok r <-> (div O (mcoef m) c = Ok (mcoef r) /\ mdeg r = mdeg m)) /\
  (forall b r, bino_div_scalar O b c = Ok r <-> Forall2 (fun x y => div O x c = Ok y) (bino_list b) (bino_list r)) /\
  (forall b r, trino_div_scalar O b c = Ok r <-> Forall2 (fun x y => div O x c = Ok y) (trino_list b) (trino_list r)).
Proof.
  intros T O c. split; [|split].
  - intros m r. unfold mono_div_scalar. split.
    + intros H. inv_ok. auto. + intros [H H2]. rewrite H. simpl. destruct r. simpl in *. subst. reflexivity.
  - intros b [x y]. unfold bino_div_scalar, bino_map, bino_list. split.
    + intros H. inv_ok. inversion H; subst. repeat (constructor; try assumption).
    + intros H. inversion H as [|? ? ? ? A H1]; subst. inversion H1 as [|? ? ? ? B H2]; subst. cbn [bc0 bc1] in *. rewrite A, B. reflexivity.
  - intros b [x y z]. unfold trino_div_scalar, trino_map, trino_list. split.
    + intros H. inv_ok. inversion H; subst. repeat (constructor; try assumption).
    + intros H. inversion H as [|? ? ? ? A H1]; subst. inversion H1 as [|? ? ? ? B H2]; subst. inversion H2 as [|? ? ? ? C H3]; subst.
      cbn [tc0 tc1 tc2] in *. rewrite A, B, C. reflexivity.
Qed.

Example C11_fixed_case :
  rmap mread (mono_scale (int_num true I8) (imono I8 (-5) 4) (mk_int I8 3)) = Ok ((-15)%Z, 4%N)
  /\ rmap tread (trino_scale (int_num true I8) (itrino I8 1 (-2) 30) (mk_int I8 4)) = Ok [4; -8; 120]%Z
  /\ rmap bread (bino_div_scalar (int_num true I8) (ibino I8 (-7) 9) (mk_int I8 2)) = Ok [-3; 4]%Z
  /\ bino_div_scalar (int_num true I8) (ibino I8 (-7) 9) (mk_int I8 0) = Panic PDivZero
  /\ bino_scale (int_num true I8) (ibino I8 (-7) 100) (mk_int I8 2) = Panic POverflow.
Proof. vm_compute. repeat split. Qed.

(** ** C27 *)

(** The effect of a term update on [b]: if the degree is [allowed], [Ok(())] and exactly that
    coefficient changes; otherwise the given error, and [b] is unchanged. *)
Definition term_update {P} {R : comring} (rd : P -> poly R) (op : poly R -> poly R -> poly R)
    (allowed : Prop) (err : try_add_err) (b : P) (c : car R) (d : N) (out : mutres P) : Prop :=
  forall r e, out = Ok (r, e) ->
    (allowed /\ e = None /\ peq (rd r) (op (rd b) (pmono c (N.to_nat d)))) \/
    (~ allowed /\ e = Some err /\ r = b).

Section C27.
Context {T : Type} (O : num T) (R : comring) (den : T -> car R) (L : lawful O R den).

Lemma changes_one (p q : poly R) (op : car R -> car R -> car R) x y c d :
  op x r0 = x -> (forall u, op u r0 = u) ->
  (forall e, q e = if Nat.eqb e d then y else p e) -> x = p d -> y = op x c ->
  peq q (fun e => op (p e) (pmono c d e)).
Proof.
  intros _ H0 Hq Hx Hy e. rewrite Hq. unfold pmono. destruct (Nat.eqb_spec e d) as [->|]; [congruence|symmetry; apply H0].
Qed.

Lemma mono_is_zero_poly m : mono_is_zero O m = true <-> peq (mpoly R den m) pzero.
Proof. apply degree_is_zero_iff, (mono_degree_spec O R den L). Qed.

Lemma mono_allowed m : ~ peq (mpoly R den m) pzero <-> mono_is_zero O m = false.
Proof. rewrite <- mono_is_zero_poly. destruct (mono_is_zero O m); split; congruence. Qed.

Lemma mono_update_zero (op : car R -> car R -> car R) m c c' d : (forall u, op u r0 = u) -> (forall u, op r0 r0 = r0 -> op r0 u = op r0 u) ->
  mono_is_zero O m = true -> den c' = op (den (mcoef m)) (den c) ->
  peq (mpoly R den (MkMono c' d)) (fun e => op (mpoly R den m e) (pmono (den c) (N.to_nat d) e)).
Proof.
  intros H0 _ Hz Hc e. apply (mono_is_zero_iff O R den L) in Hz. unfold mpoly. cbn [mcoef mdeg].
  rewrite (pmono_zero R (den (mcoef m)) (N.to_nat (mdeg m)) Hz e). unfold pzero. rewrite Hc, Hz. unfold pmono.
  destruct (Nat.eqb e (N.to_nat d)); [reflexivity|]. symmetry. apply H0.
Qed.

Lemma mono_update_same (op : car R -> car R -> car R) m c c' : (forall u, op u r0 = u) ->
  den c' = op (den (mcoef m)) (den c) ->
  peq (mpoly R den (MkMono c' (mdeg m))) (fun e => op (mpoly R den m e) (pmono (den c) (N.to_nat (mdeg m)) e)).
Proof.
  intros H0 Hc e. unfold mpoly, pmono. cbn [mcoef mdeg]. destruct (Nat.eqb e _); [exact Hc|]. symmetry. apply H0.
Qed.

Lemma update_arr a d f r : (d < len a)%N ->
  (i1 <- usub (n_chk O) (len a) d ;; i <- usub (n_chk O) i1 1 ;; a' <- update a i f ;; Ok (a', @None try_add_err)) = Ok r ->
  snd r = None /\ length (fst r) = length a /\
  exists x y, f x = Ok y /\ den x = dcoef R den a (N.to_nat d) /\
    forall e, dcoef R den (fst r) e = if Nat.eqb e (N.to_nat d) then den y else dcoef R den a e.
Proof.
  intros Hd H. rewrite !usub_le in H by lia. cbn [bind] in H. rewrite usub_le in H by lia. cbn [bind] in H. inv_ok.
  destruct (update_coef_f R den _ _ _ _ E) as (A & B & x & y & C & D & F).
  replace (length a - 1 - N.to_nat (len a - d - 1))%nat with (N.to_nat d) in * by (unfold len in *; lia).
  split; [reflexivity|]. split; [exact B|]. exists x, y. auto.
Qed.

Lemma update_arr_returns a d f : (d < len a)%N ->
  (exists r : list T * option try_add_err, (i1 <- usub (n_chk O) (len a) d ;; i <- usub (n_chk O) i1 1 ;; a' <- update a i f ;; Ok (a', None)) = Ok r)
  <-> exists x y, f x = Ok y /\ den x = dcoef R den a (N.to_nat d).
Proof.
  intros Hd. split.
  - intros (r & H). destruct (update_arr a d f r Hd H) as (_ & _ & x & y & A & B & _). eauto.
  - intros H. rewrite !usub_le by lia. cbn [bind]. rewrite usub_le by lia. cbn [bind].
    assert (Hi : (len a - d - 1 < len a)%N) by lia.
    destruct (proj2 (update_f_returns O R den L a (len a - d - 1) f Hi)) as (r & E).
    { replace (length a - 1 - N.to_nat (len a - d - 1))%nat with (N.to_nat d) by (unfold len in *; lia). exact H. }
    rewrite E. simpl. eauto.
Qed.

End C27.

Theorem C27_mono_term_update : forall T (O : num T) R den, lawful O R den -> forall m c d,
  let allowed := peq (mpoly R den m) pzero \/ d = mdeg m in
  term_update (mpoly R den) padd allowed TooManyTerms m (den c) d (mono_try_add_term O m c d) /\
  term_update (mpoly R den) psub allowed TooManyTerms m (den c) d (mono_try_sub_term O m c d).
Proof.
  intros T O R den L m c d allowed. unfold mono_try_add_term, mono_try_sub_term.
  destruct (mono_is_zero O m) eqn:Ez.
  - assert (A : allowed) by (left; apply (mono_is_zero_poly O R den L), Ez).
    split; intros r e H; inv_ok; injection H as <- <-; left; split; [exact A| |exact A|]; (split; [reflexivity|]).
    + apply (mono_update_zero O R den L radd); auto. apply radd_r0. apply (lw_add _ _ _ L _ _ _ E).
    + apply (mono_update_zero O R den L rsub); auto. apply rsub_r0. apply (lw_sub _ _ _ L _ _ _ E).
  - destruct (N.eqb_spec d (mdeg m)) as [->|Hn].
    + assert (A : allowed) by (right; reflexivity).
      split; intros r e H; inv_ok; injection H as <- <-; left; split; [exact A| |exact A|]; (split; [reflexivity|]).
      * apply (mono_update_same R den radd); auto. apply radd_r0. apply (lw_add _ _ _ L _ _ _ E).
      * apply (mono_update_same R den rsub); auto. apply rsub_r0. apply (lw_sub _ _ _ L _ _ _ E).
    + assert (A : ~ allowed).
      { intros [A|A]; [|exact (Hn A)]. apply (mono_is_zero_poly O R den L) in A. congruence. }
      split; intros r e H; inv_ok; injection H as <- <-; right; auto.
Qed.

Theorem C27_bino_term_update : forall T (O : num T) R den, lawful O R den -> forall b c d,
  term_update (bpoly R den) padd (d <= 1)%N DegreeOutOfBounds b (den c) d (bino_try_add_term O b c d) /\
  term_update (bpoly R den) psub (d <= 1)%N DegreeOutOfBounds b (den c) d (bino_try_sub_term O b c d).
Proof.
  intros T O R den L b c d. unfold bino_try_add_term, bino_try_sub_term. destruct (N.leb_spec d 1) as [Hd|Hd].
  - split; intros r e H; inv_ok; injection H as <- <-; left; (split; [exact Hd|]); (split; [reflexivity|]);
      destruct (bino_update_spec O R den b d _ _ Hd E) as (x & y & A & B & C).
    + apply (changes_one R (bpoly R den b) (bpoly R den v) radd (den x) (den y)); auto using radd_r0. apply (lw_add _ _ _ L _ _ _ A).
    + apply (changes_one R (bpoly R den b) (bpoly R den v) rsub (den x) (den y)); auto using rsub_r0. apply (lw_sub _ _ _ L _ _ _ A).
  - split; intros r e H; inv_ok; injection H as <- <-; right; (split; [lia|auto]).
Qed.

Theorem C27_trino_term_update : forall T (O : num T) R den, lawful O R den -> forall b c d,
  term_update (tpoly R den) padd (d <= 2)%N DegreeOutOfBounds b (den c) d (trino_try_add_term O b c d) /\
  term_update (tpoly R den) psub (d <= 2)%N DegreeOutOfBounds b (den c) d (trino_try_sub_term O b c d).
Proof.
  intros T O R den L b c d. unfold trino_try_add_term, trino_try_sub_term. destruct (N.leb_spec d 2) as [Hd|Hd].
  - split; intros r e H; inv_ok; injection H as <- <-; left; (split; [exact Hd|]); (split; [reflexivity|]);
      destruct (trino_update_spec O R den b d _ _ Hd E) as (x & y & A & B & C).
    + apply (changes_one R (tpoly R den b) (tpoly R den v) radd (den x) (den y)); auto using radd_r0. apply (lw_add _ _ _ L _ _ _ A).
    + apply (changes_one R (tpoly R den b) (tpoly R den v) rsub (den x) (den y)); auto using rsub_r0. apply (lw_sub _ _ _ L _ _ _ A).
  - split; intros r e H; inv_ok; injection H as <- <-; right; (split; [lia|auto]).
Qed.

(** Arrays keep their size. *)
Theorem C27_array_term_update : forall T (O : num T) R den, lawful O R den -> forall a c d,
  term_update (dcoef R den) padd (d < len a)%N DegreeOutOfBounds a (den c) d (arr_try_add_term O a c d) /\
  term_update (dcoef R den) psub (d < len a)%N DegreeOutOfBounds a (den c) d (arr_try_sub_term O a c d) /\
  (forall r e, arr_try_add_term O a c d = Ok (r, e) \/ arr_try_sub_term O a c d = Ok (r, e) -> length r = length a).
Proof.
  intros T O R den L a c d. unfold arr_try_add_term, arr_try_sub_term. destruct (N.ltb_spec d (len a)) as [Hd|Hd].
  - split; [|split].
    + intros r e H. left. split; [exact Hd|]. destruct (update_arr O R den a d _ _ Hd H) as (A & B & x & y & C & D & F).
      simpl in *. split; [exact A|].
      apply (changes_one R (dcoef R den a) (dcoef R den r) radd (den x) (den y)); auto using radd_r0. apply (lw_add _ _ _ L _ _ _ C).
    + intros r e H. left. split; [exact Hd|]. destruct (update_arr O R den a d _ _ Hd H) as (A & B & x & y & C & D & F).
      simpl in *. split; [exact A|].
      apply (changes_one R (dcoef R den a) (dcoef R den r) rsub (den x) (den y)); auto using rsub_r0. apply (lw_sub _ _ _ L _ _ _ C).
    + intros r e [H|H]; destruct (update_arr O R den a d _ _ Hd H) as (A & B & _); exact B.
  - split; [|split]; [intros r e H; inv_ok; injection H as <- <-; right; (split; [lia|auto])..|]. intros r e [H|H]; inv_ok; injection H as <- <-; reflexivity.
Qed.

(** The calls return (rather than panic) exactly when the degree is not allowed or the new
    coefficient is representable. *)
Theorem C27_fixed_term_update_returns : forall T (O : num T) R den fits, lawful O R den -> fits_ops O R den fits ->
  (forall m c d, let p := mpoly R den m in let allowed := peq p pzero \/ d = mdeg m in
    ((exists r, mono_try_add_term O m c d = Ok r) <-> (allowed -> fits (radd (p (N.to_nat d)) (den c)))) /\
    ((exists r, mono_try_sub_term O m c d = Ok r) <-> (allowed -> fits (rsub (p (N.to_nat d)) (den c))))) /\
  (forall b c d, let p := bpoly R den b in
    ((exists r, bino_try_add_term O b c d = Ok r) <-> ((d <= 1)%N -> fits (radd (p (N.to_nat d)) (den c)))) /\
    ((exists r, bino_try_sub_term O b c d = Ok r) <-> ((d <= 1)%N -> fits (rsub (p (N.to_nat d)) (den c))))) /\
  (forall b c d, let p := tpoly R den b in
    ((exists r, trino_try_add_term O b c d = Ok r) <-> ((d <= 2)%N -> fits (radd (p (N.to_nat d)) (den c)))) /\
    ((exists r, trino_try_sub_term O b c d = Ok r) <-> ((d <= 2)%N -> fits (rsub (p (N.to_nat d)) (den c))))) /\
  (forall a c d, let p := dcoef R den a in
    ((exists r, arr_try_add_term O a c d = Ok r) <-> ((d < len a)%N -> fits (radd (p (N.to_nat d)) (den c)))) /\
    ((exists r, arr_try_sub_term O a c d = Ok r) <-> ((d < len a)%N -> fits (rsub (p (N.to_nat d)) (den c))))).
Proof.
  intros T O R den fits L F.
  assert (RA : forall (p : poly R) c k, (exists x, den x = p k) ->
             (exists x y, add O x c = Ok y /\ den x = p k) <-> fits (radd (p k) (den c))).
  { intros p c k (x & Hx). split.
    - intros (x' & y & A & B). rewrite <- B. apply (fo_add _ _ _ _ F). eauto.
    - intros H. rewrite <- Hx in H. apply (fo_add _ _ _ _ F) in H. destruct H as (y & H). eauto. }
  assert (RS : forall (p : poly R) c k, (exists x, den x = p k) ->
             (exists x y, sub O x c = Ok y /\ den x = p k) <-> fits (rsub (p k) (den c))).
  { intros p c k (x & Hx). split.
    - intros (x' & y & A & B). rewrite <- B. apply (fo_sub _ _ _ _ F). eauto.
    - intros H. rewrite <- Hx in H. apply (fo_sub _ _ _ _ F) in H. destruct H as (y & H). eauto. }
  assert (W : forall A (m : res A), (exists r, ' b' <- m ;; Ok (b', @None try_add_err) = Ok r) <-> exists r, m = Ok r).
  { intros A m. split; intros (r & H); [inv_ok; eauto|]. rewrite H. simpl. eauto. }
  split; [|split; [|split]].
  - intros m c d p allowed.
    assert (P : allowed -> p (N.to_nat d) = den (mcoef m)).
    { intros [A|A]; [|subst d; apply pmono_at]. rewrite A. symmetry. apply (mono_is_zero_iff O R den L). apply (mono_is_zero_poly O R den L), A. }
    unfold mono_try_add_term, mono_try_sub_term. destruct (mono_is_zero O m) eqn:Ez.
    + assert (A : allowed) by (left; apply (mono_is_zero_poly O R den L), Ez). rewrite (P A). split; split.
      * intros (r & H) _. inv_ok. apply (fo_add _ _ _ _ F). eauto.
      * intros H. apply H in A. apply (fo_add _ _ _ _ F) in A. destruct A as (y & ->). simpl. eauto.
      * intros (r & H) _. inv_ok. apply (fo_sub _ _ _ _ F). eauto.
      * intros H. apply H in A. apply (fo_sub _ _ _ _ F) in A. destruct A as (y & ->). simpl. eauto.
    + destruct (N.eqb_spec d (mdeg m)) as [Hd|Hn].
      * assert (A : allowed) by (right; exact Hd). rewrite (P A). split; split.
        -- intros (r & H) _. inv_ok. apply (fo_add _ _ _ _ F). eauto.
        -- intros H. apply H in A. apply (fo_add _ _ _ _ F) in A. destruct A as (y & ->). simpl. eauto.
        -- intros (r & H) _. inv_ok. apply (fo_sub _ _ _ _ F). eauto.
        -- intros H. apply H in A. apply (fo_sub _ _ _ _ F) in A. destruct A as (y & ->). simpl. eauto.
      * assert (A : ~ allowed).
        { intros [A|A]; [|exact (Hn A)]. apply (mono_is_zero_poly O R den L) in A. congruence. }
        split; split; [intros _ A'; contradiction|eauto|intros _ A'; contradiction|eauto].
  - intros b c d p. subst p. unfold bino_try_add_term, bino_try_sub_term. destruct (N.leb_spec d 1) as [Hd|Hd].
    + rewrite !W, (bino_update_returns O R den L b d _ Hd), (bino_update_returns O R den L b d _ Hd).
      rewrite (RA (bpoly R den b) c), (RS (bpoly R den b) c); [tauto| |]; rewrite bpoly_at; assert (d = 0 \/ d = 1)%N as [->| ->] by lia; simpl; eauto.
    + split; split; try (intros _ A; lia); eauto.
  - intros b c d p. subst p. unfold trino_try_add_term, trino_try_sub_term. destruct (N.leb_spec d 2) as [Hd|Hd].
    + rewrite !W, (trino_update_returns O R den L b d _ Hd), (trino_update_returns O R den L b d _ Hd).
      rewrite (RA (tpoly R den b) c), (RS (tpoly R den b) c); [tauto| |]; rewrite tpoly_at; assert (d = 0 \/ d = 1 \/ d = 2)%N as [->|[->| ->]] by lia; simpl; eauto.
    + split; split; try (intros _ A; lia); eauto.
  - intros a c d p. subst p. unfold arr_try_add_term, arr_try_sub_term. destruct (N.ltb_spec d (len a)) as [Hd|Hd].
    + rewrite (update_arr_returns O R den L a d _ Hd), (update_arr_returns O R den L a d _ Hd).
      rewrite (RA (dcoef R den a) c), (RS (dcoef R den a) c); [tauto| |]; apply (coef_rep O R den L).
    + split; split; try (intros _ A; lia); eauto.
Qed.

Example C27_case :
  rmap (fun r => (tread (fst r), snd r)) (trino_try_add_term (int_num true I8) (itrino I8 1 2 3) (mk_int I8 5) 1) = Ok ([1; 7; 3]%Z, None)
  /\ rmap (fun r => (tread (fst r), snd r)) (trino_try_sub_term (int_num true I8) (itrino I8 1 2 3) (mk_int I8 5) 3) = Ok ([1; 2; 3]%Z, Some DegreeOutOfBounds)
  /\ rmap (fun r => (mread (fst r), snd r)) (mono_try_add_term (int_num true I8) (imono I8 0 3) (mk_int I8 5) 9) = Ok ((5%Z, 9%N), None)
  /\ rmap (fun r => (mread (fst r), snd r)) (mono_try_add_term (int_num true I8) (imono I8 4 3) (mk_int I8 5) 9) = Ok ((4%Z, 3%N), Some TooManyTerms)
  /\ rmap (fun r => (map ival (fst r), snd r)) (arr_try_sub_term (int_num true I8) (map (mk_int I8) [1; 2; 3; 4]%Z) (mk_int I8 5) 3) = Ok ([-4; 2; 3; 4]%Z, None)
  /\ bino_try_add_term (int_num true I8) (ibino I8 100 3) (mk_int I8 50) 1 = Panic POverflow.
Proof. vm_compute. repeat split. Qed.

(** ** C50 *)

Theorem C50_mono_arith : forall T (O : num T) R den, lawful O R den ->
  (forall m r, mono_neg O m = Ok r -> peq (mpoly R den r) (popp (mpoly R den m))) /\
  (forall a b r, n_chk O = true \/ (mdeg a + mdeg b <= USIZE_MAX)%N -> mono_mul O a b = Ok r ->
     peq (mpoly R den r) (pmul (mpoly R den a) (mpoly R den b))) /\
  (forall m e r, (e < 2 ^ 32)%N -> n_chk O = true \/ (mdeg m * e <= USIZE_MAX)%N -> mono_pow O m e = Ok r ->
     peq (mpoly R den r) (ppow (mpoly R den m) (N.to_nat e))) /\
  (forall c, peq (mpoly R den (mono_from c)) (pmono (den c) 0)).
Proof.
  intros T O R den L. split; [|split; [|split]].
  - intros m r H. unfold mono_neg in H. inv_ok. intros d. unfold mpoly, popp, pmono. cbn [mcoef mdeg].
    destruct (Nat.eqb d _); [apply (lw_neg _ _ _ L _ _ E)|]. symmetry. apply ropp_0.
  - intros a b r H. apply (mono_mul_spec O R den L). tauto.
  - intros m e r. apply (mono_pow_spec O R den L).
  - intros c. apply peq_refl.
Qed.

Theorem C50_bino_arith : forall T (O : num T) R den, lawful O R den ->
  (forall b r, bino_neg O b = Ok r -> peq (bpoly R den r) (popp (bpoly R den b))) /\
  (forall a b r, bino_add O a b = Ok r -> peq (bpoly R den r) (padd (bpoly R den a) (bpoly R den b))) /\
  (forall a b r, bino_sub O a b = Ok r -> peq (bpoly R den r) (psub (bpoly R den a) (bpoly R den b))) /\
  (forall b k, peq (bpoly R den (bino_shr O b k)) (pshr (bpoly R den b) (N.to_nat k))).
Proof.
  intros T O R den L. split; [|split; [|split]].
  - intros b r H d. apply (bino_map_spec R den (neg O) ropp b r); [apply (lw_neg _ _ _ L)|apply ropp_0|exact H].
  - intros a b r H d. apply (bino_map2_spec R den (add O) radd a b r); [apply (lw_add _ _ _ L)|apply radd_r0|exact H].
  - intros a b r H d. apply (bino_map2_spec R den (sub O) rsub a b r); [apply (lw_sub _ _ _ L)|apply rsub_r0|exact H].
  - apply (bino_shr_spec O R den L).
Qed.

Theorem C50_trino_arith : forall T (O : num T) R den, lawful O R den ->
  (forall b r, trino_neg O b = Ok r -> peq (tpoly R den r) (popp (tpoly R den b))) /\
  (forall a b r, trino_add O a b = Ok r -> peq (tpoly R den r) (padd (tpoly R den a) (tpoly R den b))) /\
  (forall a b r, trino_sub O a b = Ok r -> peq (tpoly R den r) (psub (tpoly R den a) (tpoly R den b))) /\
  (forall b k, peq (tpoly R den (trino_shr O b k)) (pshr (tpoly R den b) (N.to_nat k))).
Proof.
  intros T O R den L. split; [|split; [|split]].
  - intros b r H d. apply (trino_map_spec R den (neg O) ropp b r); [apply (lw_neg _ _ _ L)|apply ropp_0|exact H].
  - intros a b r H d. apply (trino_map2_spec R den (add O) radd a b r); [apply (lw_add _ _ _ L)|apply radd_r0|exact H].
  - intros a b r H d. apply (trino_map2_spec R den (sub O) rsub a b r); [apply (lw_sub _ _ _ L)|apply rsub_r0|exact H].
  - apply (trino_shr_spec O R den L).
Qed.

(** They return exactly when every resulting coefficient is representable. *)
Theorem C50_fixed_arith_returns : forall T (O : num T) R den fits, lawful O R den -> fits_ops O R den fits ->
  (forall m, (exists r, mono_neg O m = Ok r) <-> forall d, fits (popp (mpoly R den m) d)) /\
  (forall a b, (exists r, bino_add O a b = Ok r) <-> forall d, fits (padd (bpoly R den a) (bpoly R den b) d)) /\
  (forall a b, (exists r, bino_sub O a b = Ok r) <-> forall d, fits (psub (bpoly R den a) (bpoly R den b) d)) /\
  (forall b, (exists r, bino_neg O b = Ok r) <-> forall d, fits (popp (bpoly R den b) d)) /\
  (forall a b, (exists r, trino_add O a b = Ok r) <-> forall d, fits (padd (tpoly R den a) (tpoly R den b) d)) /\
  (forall a b, (exists r, trino_sub O a b = Ok r) <-> forall d, fits (psub (tpoly R den a) (tpoly R den b) d)) /\
  (forall b, (exists r, trino_neg O b = Ok r) <-> forall d, fits (popp (tpoly R den b) d)).
Proof.
  intros T O R den fits L F.
  assert (Z : fits r0) by (rewrite <- (lw_zero _ _ _ L); apply (fo_den _ _ _ _ F)).
  split; [|split; [|split; [|split; [|split; [|split]]]]].
  - intros m. unfold mono_neg, mpoly, popp. split.
    + intros (r & H) d. inv_ok. unfold pmono. destruct (Nat.eqb d _); [apply (fo_neg _ _ _ _ F); eauto|]. rewrite ropp_0. exact Z.
    + intros H. specialize (H (N.to_nat (mdeg m))). rewrite pmono_at in H. apply (fo_neg _ _ _ _ F) in H. destruct H as (y & ->). simpl. eauto.
  - intros a b. apply (bino_map2_returns R den (add O) (fun x y => fits (radd x y))); [rewrite radd_r0; exact Z|apply (fo_add _ _ _ _ F)].
  - intros a b. apply (bino_map2_returns R den (sub O) (fun x y => fits (rsub x y))); [rewrite rsub_r0; exact Z|apply (fo_sub _ _ _ _ F)].
  - intros b. apply (bino_map_returns R den (neg O) (fun x => fits (ropp x))); [rewrite ropp_0; exact Z|apply (fo_neg _ _ _ _ F)].
  - intros a b. apply (trino_map2_returns R den (add O) (fun x y => fits (radd x y))); [rewrite radd_r0; exact Z|apply (fo_add _ _ _ _ F)].
  - intros a b. apply (trino_map2_returns R den (sub O) (fun x y => fits (rsub x y))); [rewrite rsub_r0; exact Z|apply (fo_sub _ _ _ _ F)].
  - intros b. apply (trino_map_returns R den (neg O) (fun x => fits (ropp x))); [rewrite ropp_0; exact Z|apply (fo_neg _ _ _ _ F)].
Qed.

Example C50_case :
  rmap mread (mono_mul (int_num true I8) (imono I8 (-5) 4) (imono I8 3 2)) = Ok ((-15)%Z, 6%N)
  /\ rmap mread (mono_pow (int_num true I8) (imono I8 (-3) 4) 3) = Ok ((-27)%Z, 12%N)
  /\ rmap tread (trino_sub (int_num true I8) (itrino I8 1 2 3) (itrino I8 4 2 (-3))) = Ok [-3; 0; 6]%Z
  /\ bread (bino_shr (int_num true I8) (ibino I8 1 2) 1) = [0; 1]%Z
  /\ tread (trino_shr (int_num true I8) (itrino I8 1 2 3) 2) = [0; 0; 1]%Z
  /\ trino_neg (int_num true I8) (itrino I8 1 (-128) 3) = Panic POverflow.
Proof. vm_compute. repeat split. Qed.
