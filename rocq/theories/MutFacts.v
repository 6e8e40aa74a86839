(** Term-wise accumulation into any [MutablePolynomial] (PolyMath.v). *)

From Coq Require Import List NArith ZArith Lia Bool Ring Arith.
From Coq Require Import ZifyBool ZifyNat ZifyN.
From Verif Require Import Base Num Spec SpecFacts Laws Terms Dense Sparse Mono Bino Trino ArrPoly.
From Verif Require Import DenseFacts DenseMut SparseFacts SparseCalc FixedFacts P_Fixed1 PolyMath.
Import ListNotations.

(** What one successful or failed term update does to the polynomial [rd p]. *)
Definition term_law {T P} {R : comring} (den : T -> car R) (inv : P -> Prop) (rd : P -> poly R)
    (op : poly R -> poly R -> poly R) (f : P -> T -> N -> mutres P) : Prop :=
  forall p c d r e, inv p -> (d <= USIZE_MAX)%N -> f p c d = Ok (r, e) ->
    inv r /\ match e with
             | None => peq (rd r) (op (rd p) (pmono (den c) (N.to_nat d)))
             | Some _ => r = p
             end.

Record sink_laws {T P} (R : comring) (den : T -> car R) (S : mutpoly T P) (inv : P -> Prop) (rd : P -> poly R) := {
  sk_add : term_law den inv rd padd (s_add S);
  sk_sub : term_law den inv rd psub (s_sub S)
}.

(** ** The six implementations *)
Section Instances.
Context {T : Type} (O : num T) (R : comring) (den : T -> car R) (L : lawful O R den).
Add Ring Rring_mf : (r_theory R).

Lemma dense_try_sub_max (l : list T) c r : vec_ok O l -> dense_try_sub_term O l c USIZE_MAX <> Ok r.
Proof.
  intros Hv H. rewrite dense_try_sub_term_upd in H.
  destruct (upd_term_max O R den L l (fun x => sub O x c) Hv) as (k & Hk). rewrite Hk in H.
  change (uadd (n_chk O) USIZE_MAX 1) with (if n_chk O then @Panic N POverflow else Ok 0%N) in H.
  destruct (n_chk O); cbn [bind] in H; [discriminate|]. destruct (N.ltb_spec (len l) 0); [lia|].
  cbn [andb bind] in H. discriminate H.
Qed.

Lemma dense_sink : sink_laws R den (dense_mut O) (vec_ok O) (dcoef R den).
Proof.
  split; intros p c d r e Hp Hd H; cbn in H.
  - unfold dense_try_add_term in H. inv_ok. injection H as <- <-.
    apply (dense_add_term_spec O R den L) in E; tauto.
  - destruct (N.eq_dec d USIZE_MAX) as [->|Hn]; [destruct (dense_try_sub_max p c _ Hp H)|].
    apply (dense_try_sub_term_spec O R den L) in H; [|assumption|lia].
    destruct H as [(-> & A & B & _)|(-> & -> & _)]; auto.
Qed.

Lemma sparse_sink : sink_laws R den (sparse_mut O) swf (scoef R den).
Proof.
  split; intros p c d r e Hp Hd H; cbn in H.
  - unfold sparse_try_add_term in H. inv_ok. injection H as <- <-.
    apply (sparse_add_term_spec O R den L) in E; tauto.
  - apply (sparse_try_sub_term_spec O R den L) in H; [|assumption..].
    destruct H as [(-> & A & B & _)|(-> & -> & _)]; auto.
Qed.

Lemma update_law {P} (inv : P -> Prop) rd op (f : P -> T -> N -> mutres P) (ok : P -> N -> Prop) err :
  (forall p, inv p) -> (forall p c d, term_update rd op (ok p d) err p (den c) d (f p c d)) ->
  @term_law T P R den inv rd op f.
Proof.
  intros Hi H p c d r e _ _ E. split; [apply Hi|]. destruct (H p c d r e E) as [(_ & -> & A)|(_ & -> & A)]; exact A.
Qed.

Lemma mono_sink : sink_laws R den (mono_mut O) (fun _ => True) (mpoly R den).
Proof.
  split; (eapply update_law; [exact (fun _ => I)|]); intros p c d; apply (C27_mono_term_update T O R den L p c d).
Qed.
Lemma bino_sink : sink_laws R den (bino_mut O) (fun _ => True) (bpoly R den).
Proof.
  split; (eapply (update_law _ _ _ _ (fun _ d => _)); [exact (fun _ => I)|]); intros p c d; apply (C27_bino_term_update T O R den L p c d).
Qed.
Lemma trino_sink : sink_laws R den (trino_mut O) (fun _ => True) (tpoly R den).
Proof.
  split; (eapply (update_law _ _ _ _ (fun _ d => _)); [exact (fun _ => I)|]); intros p c d; apply (C27_trino_term_update T O R den L p c d).
Qed.
Lemma arr_sink n : sink_laws R den (arr_mut O) (fun a => length a = n) (dcoef R den).
Proof.
  split; intros p c d r e Hp Hd H; cbn in H;
    destruct (C27_array_term_update T O R den L p c d) as (A & B & C).
  - split; [rewrite (C r e); auto|]. destruct (A r e H) as [(_ & -> & F)|(_ & -> & F)]; exact F.
  - split; [rewrite (C r e); auto|]. destruct (B r e H) as [(_ & -> & F)|(_ & -> & F)]; exact F.
Qed.

(** Signed types never report an error on the growable representations. *)
Lemma dense_no_err p c d r e : can_negate O = true -> vec_ok O p -> (d <= USIZE_MAX)%N ->
  (s_add (dense_mut O) p c d = Ok (r, e) -> e = None) /\ (s_sub (dense_mut O) p c d = Ok (r, e) -> e = None).
Proof.
  intros Hn Hp Hd. split; cbn; intros H.
  - unfold dense_try_add_term in H. inv_ok. injection H as <- <-. reflexivity.
  - destruct (N.eq_dec d USIZE_MAX) as [->|Hne]; [destruct (dense_try_sub_max p c _ Hp H)|].
    apply (dense_try_sub_term_spec O R den L) in H; [|assumption|lia].
    destruct H as [(-> & _)|(_ & _ & A & _)]; congruence.
Qed.
Lemma sparse_no_err p c d r e : can_negate O = true -> swf p -> (d <= USIZE_MAX)%N ->
  (s_add (sparse_mut O) p c d = Ok (r, e) -> e = None) /\ (s_sub (sparse_mut O) p c d = Ok (r, e) -> e = None).
Proof.
  intros Hn Hp Hd. split; cbn; intros H.
  - unfold sparse_try_add_term in H. inv_ok. injection H as <- <-. reflexivity.
  - apply (sparse_try_sub_term_spec O R den L) in H; [|assumption..].
    destruct H as [(-> & _)|(_ & _ & A & _)]; congruence.
Qed.
End Instances.

(** ** Accumulation *)
Section Acc.
Context {T P : Type} (R : comring) (den : T -> car R) (inv : P -> Prop) (rd : P -> poly R).
Add Ring Rring_mf2 : (r_theory R).
Notation fine ts := (Forall (fun t : T * N => (snd t <= USIZE_MAX)%N) ts).

(** [r] is [p] with exactly the terms [ts] applied by [op]. *)
Definition applied (op : poly R -> poly R -> poly R) (p : P) (ts : list (T * N)) (r : P) : Prop :=
  peq (rd r) (op (rd p) (terms_coef (dterms R den ts))).

Definition accum (op : poly R -> poly R -> poly R) : Prop := op = padd \/ op = psub.

Lemma applied_nil op p : accum op -> applied op p [] p.
Proof. intros [->| ->] i; unfold padd, psub; cbn [dterms map terms_coef]; unfold pzero; ring. Qed.

Lemma applied_cons op p c d q ts r : accum op -> peq (rd q) (op (rd p) (pmono (den c) (N.to_nat d))) ->
  applied op q ts r -> applied op p ((c, d) :: ts) r.
Proof.
  intros Ho A B i. unfold applied in B. cbn [dterms map terms_coef fst snd]. specialize (A i). specialize (B i).
  fold (dterms R den ts). destruct Ho as [->| ->]; unfold padd, psub in *; rewrite B, A; ring.
Qed.

Lemma applied_app op p ts1 q ts2 r : accum op -> applied op p ts1 q -> applied op q ts2 r ->
  applied op p (ts1 ++ ts2) r.
Proof.
  intros Ho A B i. unfold applied in *. specialize (A i). specialize (B i).
  unfold dterms. rewrite map_app. change (map _ ts1) with (dterms R den ts1). change (map _ ts2) with (dterms R den ts2).
  destruct Ho as [->| ->]; unfold padd, psub in *; rewrite (terms_coef_app _ _ i); unfold padd; rewrite B, A; ring.
Qed.

Lemma apply_terms_spec op f (Ho : accum op) (Hf : term_law den inv rd op f) ts : forall p r e,
  inv p -> fine ts -> apply_terms f ts p = Ok (r, e) ->
  inv r /\ match e with
           | None => applied op p ts r
           | Some k => exists ts1 c d ts2, ts = ts1 ++ (c, d) :: ts2 /\ applied op p ts1 r /\ f r c d = Ok (r, Some k)
           end.
Proof.
  induction ts as [|[c d] ts IH]; intros p r e Hp Hb H; cbn [apply_terms] in H.
  - injection H as <- <-. split; [exact Hp|]. apply applied_nil, Ho.
  - inversion Hb as [|? ? Hd Hb']; subst. cbn in Hd. destruct (f p c d) as [[q k]| |] eqn:E; cbn [bind] in H; try discriminate H.
    destruct (Hf p c d q k Hp Hd E) as [Hq A]. destruct k as [k|]; cbn [fst snd] in H.
    + injection H as <- <-. subst q. split; [exact Hp|]. exists [], c, d, ts. split; [reflexivity|].
      split; [apply applied_nil, Ho|exact E].
    + destruct (IH q r e Hq Hb' H) as [Hr B]. split; [exact Hr|]. destruct e as [k|].
      * destruct B as (ts1 & c' & d' & ts2 & -> & B & C). exists ((c, d) :: ts1), c', d', ts2.
        split; [reflexivity|]. split; [|exact C]. eapply applied_cons; eauto.
      * eapply applied_cons; eauto.
Qed.

Lemma apply_all_spec op f (Ho : accum op) (Hf : term_law den inv rd op f) xs : forall p r e,
  inv p -> Forall (fun ts => fine ts) xs -> apply_all f xs p = Ok (r, e) ->
  inv r /\ (e = None -> applied op p (concat xs) r).
Proof.
  induction xs as [|x xs IH]; intros p r e Hp Hb H; cbn [apply_all] in H.
  - injection H as <- <-. split; [exact Hp|]. intros _. apply applied_nil, Ho.
  - inversion Hb as [|? ? Hx Hb']; subst. inv_ok. injection H as <- <-. destruct v as [q k]. destruct v0 as [r k']. cbn [fst snd] in *.
    destruct (apply_terms_spec op f Ho Hf x p q k Hp Hx E) as [Hq A].
    destruct (IH q r k' Hq Hb' E0) as [Hr B]. split; [exact Hr|]. destruct k as [k|]; [discriminate|].
    intros ->. cbn [concat]. eapply applied_app; eauto.
Qed.

(** Every operand contributes a prefix of its terms, the whole of it unless it failed; the
    error reported is that of the first operand that failed. *)
Inductive contrib (f : P -> T -> N -> mutres P) (op : poly R -> poly R -> poly R) : P -> list (list (T * N)) -> P -> option try_add_err -> Prop :=
| contrib_nil p : contrib f op p [] p None
| contrib_ok p x q xs r e : applied op p x q -> contrib f op q xs r e -> contrib f op p (x :: xs) r e
| contrib_err p x1 c d x2 q k xs r e : applied op p x1 q -> f q c d = Ok (q, Some k) -> contrib f op q xs r e ->
    contrib f op p ((x1 ++ (c, d) :: x2) :: xs) r (Some k).

Lemma apply_all_contrib op f (Ho : accum op) (Hf : term_law den inv rd op f) xs : forall p r e,
  inv p -> Forall (fun ts => fine ts) xs -> apply_all f xs p = Ok (r, e) -> contrib f op p xs r e.
Proof.
  induction xs as [|x xs IH]; intros p r e Hp Hb H; cbn [apply_all] in H.
  - injection H as <- <-. constructor.
  - inversion Hb as [|? ? Hx Hb']; subst. inv_ok. injection H as <- <-. destruct v as [q k]. destruct v0 as [r k']. cbn [fst snd] in *.
    destruct (apply_terms_spec op f Ho Hf x p q k Hp Hx E) as [Hq A].
    pose proof (IH q r k' Hq Hb' E0) as B. destruct k as [k|].
    + destruct A as (x1 & c & d & x2 & -> & A & F). eapply contrib_err; eauto.
    + eapply contrib_ok; eauto.
Qed.

Lemma apply_terms_no_err f (Hf : forall p c d r e, inv p -> (d <= USIZE_MAX)%N -> f p c d = Ok (r, e) -> inv r /\ e = None) ts :
  forall p r e, inv p -> fine ts -> apply_terms f ts p = Ok (r, e) -> inv r /\ e = None.
Proof.
  induction ts as [|[c d] ts IH]; intros p r e Hp Hb H; cbn [apply_terms] in H.
  - injection H as <- <-. auto.
  - inversion Hb as [|? ? Hd Hb']; subst. cbn in Hd. destruct (f p c d) as [[q k]| |] eqn:E; cbn [bind] in H; try discriminate H.
    destruct (Hf p c d q k Hp Hd E) as [Hq ->]. cbn [fst snd] in H. eauto.
Qed.
Lemma apply_all_no_err f (Hf : forall p c d r e, inv p -> (d <= USIZE_MAX)%N -> f p c d = Ok (r, e) -> inv r /\ e = None) xs :
  forall p r e, inv p -> Forall (fun ts => fine ts) xs -> apply_all f xs p = Ok (r, e) -> inv r /\ e = None.
Proof.
  induction xs as [|x xs IH]; intros p r e Hp Hb H; cbn [apply_all] in H.
  - injection H as <- <-. auto.
  - inversion Hb as [|? ? Hx Hb']; subst. inv_ok. injection H as <- <-. destruct v as [q k], v0 as [r k']. cbn [fst snd] in *.
    destruct (apply_terms_no_err f Hf x p q k Hp Hx E) as [Hq ->].
    destruct (IH q r k' Hq Hb' E0) as [Hr ->]. auto.
Qed.

(** ** Products *)
Context (O : num T) (L : lawful O R den) (S : mutpoly T P) (HS : sink_laws R den S inv rd).

(** All pairwise products, in the order of the loops. *)
Definition prods (rhs lhs : list (T * N)) : list (car R * N) :=
  flat_map (fun r => map (fun l => (rmul (den (fst r)) (den (fst l)), (snd r + snd l)%N)) lhs) rhs.

Lemma terms_coef_scale c k (l : list (car R * N)) :
  peq (terms_coef (map (fun t => (rmul c (fst t), (k + snd t)%N)) l)) (pmul (pmono c (N.to_nat k)) (terms_coef l)).
Proof.
  induction l as [|[c' k'] l IH]; intros i; cbn [map terms_coef fst snd].
  - symmetry. apply pmul_zero_r. intros j; reflexivity.
  - unfold padd at 1. rewrite IH. rewrite (pmul_padd_r _ _ _ i). unfold padd. f_equal.
    rewrite (pmul_pmono_pmono _ _ _ _ i), Nnat.N2Nat.inj_add. reflexivity.
Qed.

Lemma prods_row rc rk lhs :
  map (fun l : T * N => (rmul (den rc) (den (fst l)), (rk + snd l)%N)) lhs =
  map (fun t => (rmul (den rc) (fst t), (rk + snd t)%N)) (dterms R den lhs).
Proof. unfold dterms. rewrite map_map. reflexivity. Qed.

Lemma prods_coef rhs lhs :
  peq (terms_coef (prods rhs lhs)) (pmul (terms_coef (dterms R den rhs)) (terms_coef (dterms R den lhs))).
Proof.
  induction rhs as [|[rc rk] rhs IH]; intros i; cbn [prods flat_map dterms map terms_coef fst snd].
  - symmetry. apply pmul_zero_l. intros j; reflexivity.
  - fold (dterms R den rhs). fold (prods rhs lhs).
    rewrite (terms_coef_app _ _ i). unfold padd at 1. rewrite IH, prods_row.
    rewrite (terms_coef_scale _ _ _ i). rewrite (pmul_padd_l _ _ _ i). reflexivity.
Qed.

(** [r] is [p] plus the terms [ts] (already read as ring elements). *)
Definition plus_terms (p : P) (ts : list (car R * N)) (r : P) : Prop := peq (rd r) (padd (rd p) (terms_coef ts)).

Lemma plus_terms_nil p : plus_terms p [] p.
Proof. intros i. unfold padd. cbn [terms_coef]. unfold pzero. ring. Qed.
Lemma plus_terms_app p ts1 q ts2 r : plus_terms p ts1 q -> plus_terms q ts2 r -> plus_terms p (ts1 ++ ts2) r.
Proof.
  intros A B i. specialize (A i). specialize (B i). unfold padd in *. rewrite (terms_coef_app _ _ i). unfold padd.
  rewrite B, A. ring.
Qed.

(** A successful run applies all the terms; a failed one applies those before some term
    whose addition to the final value reports that error. *)
Definition prefix_run (p : P) (ts : list (car R * N)) (r : P) (e : option try_add_err) : Prop :=
  match e with
  | None => plus_terms p ts r
  | Some k => exists ts1 c d ts2, ts = ts1 ++ (den c, d) :: ts2 /\ plus_terms p ts1 r /\ s_add S r c d = Ok (r, Some k)
  end.

Lemma mul_row_spec rc rk lhs : forall p r e, inv p ->
  Forall (fun l => (rk + snd l <= USIZE_MAX)%N) lhs -> mul_row O S rc rk lhs p = Ok (r, e) ->
  inv r /\ prefix_run p (map (fun l : T * N => (rmul (den rc) (den (fst l)), (rk + snd l)%N)) lhs) r e.
Proof.
  induction lhs as [|[lc lk] lhs IH]; intros p r e Hp Hb H; cbn [mul_row] in H.
  - injection H as <- <-. split; [exact Hp|]. apply plus_terms_nil.
  - inversion Hb as [|? ? Hd Hb']; subst. cbn [fst snd] in Hd. rewrite uadd_small in H by exact Hd.
    destruct (mul O rc lc) as [c| |] eqn:Em; cbn [bind] in H; try discriminate H.
    apply (lw_mul _ _ _ L) in Em.
    destruct (s_add S p c (rk + lk)) as [[q k]| |] eqn:E; cbn [bind] in H; try discriminate H.
    destruct (sk_add _ _ _ _ _ HS p c _ q k Hp Hd E) as [Hq A]. cbn [map fst snd]. destruct k as [k|]; cbn [fst snd] in H.
    + injection H as <- <-. subst q. split; [exact Hp|]. exists [], c, (rk + lk)%N, (map (fun l : T * N => (rmul (den rc) (den (fst l)), (rk + snd l)%N)) lhs).
      rewrite Em. split; [reflexivity|]. split; [apply plus_terms_nil|exact E].
    + destruct (IH q r e Hq Hb' H) as [Hr B]. split; [exact Hr|].
      assert (A' : plus_terms p [(rmul (den rc) (den lc), (rk + lk)%N)] q).
      { intros i. rewrite A. unfold padd. cbn [terms_coef]. unfold padd, pzero. rewrite Em. ring. }
      destruct e as [k|]; cbn [prefix_run] in *.
      * destruct B as (ts1 & c' & d' & ts2 & -> & B & C). eexists (_ :: ts1), c', d', ts2. split; [reflexivity|].
        split; [|exact C]. exact (plus_terms_app _ [_] _ _ _ A' B).
      * exact (plus_terms_app _ [_] _ _ _ A' B).
Qed.

Lemma mul_poly_vec_spec lhs rhs : forall p r e, inv p ->
  Forall (fun t => Forall (fun l : T * N => (snd t + snd l <= USIZE_MAX)%N) lhs) rhs ->
  mul_poly_vec O S rhs lhs p = Ok (r, e) -> inv r /\ prefix_run p (prods rhs lhs) r e.
Proof.
  induction rhs as [|[rc rk] rhs IH]; intros p r e Hp Hb H; cbn [mul_poly_vec] in H.
  - injection H as <- <-. split; [exact Hp|]. apply plus_terms_nil.
  - inversion Hb as [|? ? Hd Hb']; subst. cbn [fst snd] in Hd.
    destruct (mul_row O S rc rk lhs p) as [[q k]| |] eqn:E; cbn [bind] in H; try discriminate H.
    destruct (mul_row_spec rc rk lhs p q k Hp Hd E) as [Hq A]. unfold prods. cbn [flat_map]. fold (prods rhs lhs). cbn [fst snd].
    destruct k as [k|]; cbn [fst snd] in H.
    + injection H as <- <-. split; [exact Hq|]. destruct A as (ts1 & c & d & ts2 & -> & A & B).
      exists ts1, c, d, (ts2 ++ prods rhs lhs). rewrite <- app_assoc. auto.
    + destruct (IH q r e Hq Hb' H) as [Hr B]. split; [exact Hr|]. cbn [prefix_run] in A. destruct e as [k|].
      * destruct B as (ts1 & c & d & ts2 & -> & B & C). eexists (_ ++ ts1), c, d, ts2. split; [apply app_assoc|].
        split; [|exact C]. exact (plus_terms_app _ _ _ _ _ A B).
      * exact (plus_terms_app _ _ _ _ _ A B).
Qed.

(** ** Histories *)

(** The polynomial a history denotes: successful calls act, failed ones do not. *)
Fixpoint replay (p : poly R) (h : list (@call T)) (log : list (option try_add_err)) : poly R :=
  match h, log with
  | CallAdd c d :: h', None :: log' => replay (padd p (pmono (den c) (N.to_nat d))) h' log'
  | CallSub c d :: h', None :: log' => replay (psub p (pmono (den c) (N.to_nat d))) h' log'
  | CallReset :: h', _ :: log' => replay pzero h' log'
  | _ :: h', _ :: log' => replay p h' log'
  | _, _ => p
  end.

Definition call_deg (x : @call T) : Prop :=
  match x with CallAdd _ d | CallSub _ d => (d <= USIZE_MAX)%N | CallReset => True end.

Lemma replay_ext h : forall p q log, peq p q -> peq (replay p h log) (replay q h log).
Proof.
  induction h as [|x h IH]; intros p q log E; [exact E|].
  destruct log as [|k log]; [destruct x; exact E|]. destruct x as [c d|c d|]; destruct k; cbn [replay]; apply IH; try exact E.
  - intros i. unfold padd. rewrite E. reflexivity.
  - intros i. unfold psub. rewrite E. reflexivity.
  - intros i; reflexivity.
  - intros i; reflexivity.
Qed.

Lemma run_spec reset (Hz : forall p, inv p -> inv (reset p) /\ peq (rd (reset p)) pzero) h : forall p r log,
  inv p -> Forall call_deg h -> run S reset h p = Ok (r, log) ->
  inv r /\ length log = length h /\ peq (rd r) (replay (rd p) h log).
Proof.
  induction h as [|x h IH]; intros p r log Hp Hb H; cbn [run] in H.
  - injection H as <- <-. split; [exact Hp|]. split; [reflexivity|]. intros i; reflexivity.
  - inversion Hb as [|? ? Hd Hb']; subst. destruct (do_call S reset p x) as [[q k]| |] eqn:E; cbn [bind] in H; try discriminate H.
    destruct (run S reset h q) as [[r' log']| |] eqn:E2; cbn [bind fst snd] in H; rewrite E2 in H || idtac; cbn [bind fst snd] in H; try discriminate H.
    injection H as <- <-.
    assert (A : inv q /\ peq (rd q) (replay (rd p) [x] [k])).
    { destruct x as [c d|c d|]; cbn [do_call] in E.
      - destruct (sk_add _ _ _ _ _ HS p c d q k Hp Hd E) as [Hq A]. split; [exact Hq|]. destruct k; [subst q; intros i; reflexivity|exact A].
      - destruct (sk_sub _ _ _ _ _ HS p c d q k Hp Hd E) as [Hq A]. split; [exact Hq|]. destruct k; [subst q; intros i; reflexivity|exact A].
      - injection E as <- <-. apply Hz, Hp. }
    destruct A as [Hq A]. destruct (IH q r' log' Hq Hb' E2) as (Hr & Hl & B). split; [exact Hr|].
    split; [cbn; congruence|]. intros i. rewrite B. rewrite (replay_ext h _ _ log' A i).
    destruct x, k; reflexivity.
Qed.
End Acc.
