(** Properties C26, C28-C31: sequences of term updates, and accumulation of polynomials
    into any [MutablePolynomial] (poly_math.rs).

    [run S reset h p] performs the calls [h] on [p] and returns the final value and the list
    of results; [sink_laws], [replay] and [prods] are specifications (MutFacts.v). *)

From Coq Require Import List NArith ZArith Lia Bool Ring Arith.
From Coq Require Import ZifyBool ZifyNat ZifyN.
From Verif Require Import Base Num Spec SpecFacts Laws Terms Dense Sparse Mono Bino Trino ArrPoly.
From Verif Require Import DenseFacts DenseMut Wrap SparseFacts SparseCalc FixedFacts P_Fixed1 PolyMath MutFacts.
Import ListNotations.

Definition degrees_ok {T} (ts : list (T * N)) : Prop := Forall (fun t => (snd t <= USIZE_MAX)%N) ts.
Definition izt (t : ity) (l : list (Z * N)) : list (int t * N) := map (fun x => (mk_int t (fst x), snd x)) l.

(** ** C26 *)

Theorem C26_dense_history : forall T (O : num T) R den, lawful O R den -> forall h p r log,
  vec_ok O p -> Forall call_deg h -> run (dense_mut O) (fun _ => dense_zero) h p = Ok (r, log) ->
  length log = length h /\ peq (dcoef R den r) (replay R den (dcoef R den p) h log).
Proof.
  intros T O R den L h p r log Hp Hh H. pose proof (lw_cap _ _ _ L).
  refine (proj2 (run_spec R den (vec_ok O) (dcoef R den) (dense_mut O) (dense_sink O R den L) _ _ h p r log Hp Hh H)).
  intros q _. split; [unfold vec_ok, dense_zero, len; cbn; lia|]. intros d. apply dcoef_nil.
Qed.

Theorem C26_sparse_history : forall T (O : num T) R den, lawful O R den -> forall h p r log,
  swf p -> Forall call_deg h -> run (sparse_mut O) (fun _ => []) h p = Ok (r, log) ->
  length log = length h /\ peq (scoef R den r) (replay R den (scoef R den p) h log).
Proof.
  intros T O R den L h p r log Hp Hh H.
  refine (proj2 (run_spec R den swf (scoef R den) (sparse_mut O) (sparse_sink O R den L) _ _ h p r log Hp Hh H)).
  intros q _. split; [exact swf_nil|]. intros d. reflexivity.
Qed.

Theorem C26_fixed_history : forall T (O : num T) R den, lawful O R den -> forall h log, Forall call_deg h ->
  (forall p r, run (mono_mut O) (mono_set_to_zero O) h p = Ok (r, log) ->
     peq (mpoly R den r) (replay R den (mpoly R den p) h log)) /\
  (forall p r, run (bino_mut O) (fun _ => bino_zero O) h p = Ok (r, log) ->
     peq (bpoly R den r) (replay R den (bpoly R den p) h log)) /\
  (forall p r, run (trino_mut O) (fun _ => trino_zero O) h p = Ok (r, log) ->
     peq (tpoly R den r) (replay R den (tpoly R den p) h log)) /\
  (forall p r, run (arr_mut O) (fun a => arr_zero O (length a)) h p = Ok (r, log) ->
     length r = length p /\ peq (dcoef R den r) (replay R den (dcoef R den p) h log)).
Proof.
  intros T O R den L h log Hh.
  destruct (C02_fixed_is_zero T O R den L) as (_ & _ & _ & _ & Z1 & Z2 & Z3 & Z4).
  split; [|split; [|split]]; intros p r H.
  - apply (run_spec R den _ _ _ (mono_sink O R den L) _ (fun q _ => conj I (Z1 q)) h p r log I Hh H).
  - apply (run_spec R den _ _ _ (bino_sink O R den L) (fun _ => bino_zero O) (fun q _ => conj I Z2) h p r log I Hh H).
  - apply (run_spec R den _ _ _ (trino_sink O R den L) (fun _ => trino_zero O) (fun q _ => conj I Z3) h p r log I Hh H).
  - destruct (run_spec R den _ _ _ (arr_sink O R den L (length p)) (fun a => arr_zero O (length a))) with (h := h) (p := p) (r := r) (log := log)
      as (A & _ & B); auto.
    intros q Hq. split; [unfold arr_zero; rewrite repeat_length; exact Hq|apply Z4].
Qed.

(** What [replay] means: the last reset forgets everything before it, and without resets
    it is the start plus the successful additions minus the successful subtractions. *)
Fixpoint net_terms {T} (R : comring) (den : T -> car R) (h : list (@call T)) (log : list (option try_add_err)) : list (car R * N) :=
  match h, log with
  | CallAdd c d :: h', None :: log' => (den c, d) :: net_terms R den h' log'
  | CallSub c d :: h', None :: log' => (ropp (den c), d) :: net_terms R den h' log'
  | _ :: h', _ :: log' => net_terms R den h' log'
  | _, _ => []
  end.

Theorem C26_last_reset : forall T (R : comring) (den : T -> car R) p h1 h2 log1 k log2, length log1 = length h1 ->
  replay R den p (h1 ++ CallReset :: h2) (log1 ++ k :: log2) = replay R den pzero h2 log2.
Proof.
  intros T R den p h1. revert p. induction h1 as [|x h1 IH]; intros p h2 log1 k log2 Hl.
  - destruct log1; [|discriminate Hl]. reflexivity.
  - destruct log1 as [|k1 log1]; [discriminate Hl|]. injection Hl as Hl. cbn [app].
    destruct x, k1; cbn [replay]; apply IH, Hl.
Qed.

Section Net.
Context {T : Type} (R : comring) (den : T -> car R).
Add Ring Rring_pm : (r_theory R).
Lemma replay_net h : forall p log, ~ In CallReset h ->
  peq (replay R den p h log) (padd p (terms_coef (net_terms R den h log))).
Proof.
  induction h as [|x h IH]; intros p log Hn i.
  - cbn [replay net_terms]. unfold padd. cbn [terms_coef]. unfold pzero. ring.
  - assert (Hn' : ~ In CallReset h) by (intros X; apply Hn; right; exact X).
    destruct log as [|k log]; [destruct x; cbn [replay net_terms terms_coef]; unfold padd, pzero; ring|].
    destruct x as [c d|c d|]; [| |exfalso; apply Hn; left; reflexivity]; destruct k; cbn [replay net_terms];
      rewrite (IH _ log Hn' i); unfold padd; cbn [terms_coef]; unfold padd, psub; try ring.
    unfold pmono. destruct (Nat.eqb i (N.to_nat d)); ring.
Qed.
End Net.

Theorem C26_net_sum : forall T (R : comring) (den : T -> car R) h p log, ~ In CallReset h ->
  peq (replay R den p h log) (padd p (terms_coef (net_terms R den h log))).
Proof. intros. apply replay_net. assumption. Qed.

(** A call returning an error changes nothing, and for signed types no call errs. *)
Theorem C26_err_unchanged : forall T (O : num T) R den, lawful O R den -> forall c d k, (d <= USIZE_MAX)%N ->
  (forall l r, vec_ok O l -> dense_try_add_term O l c d = Ok (r, Some k) \/ dense_try_sub_term O l c d = Ok (r, Some k) -> r = l) /\
  (forall m r, swf m -> sparse_try_add_term O m c d = Ok (r, Some k) \/ sparse_try_sub_term O m c d = Ok (r, Some k) -> r = m).
Proof.
  intros T O R den L c d k Hd. split; intros p r Hp [H|H].
  - apply (sk_add _ _ _ _ _ (dense_sink O R den L) p c d r _ Hp Hd H).
  - apply (sk_sub _ _ _ _ _ (dense_sink O R den L) p c d r _ Hp Hd H).
  - apply (sk_add _ _ _ _ _ (sparse_sink O R den L) p c d r _ Hp Hd H).
  - apply (sk_sub _ _ _ _ _ (sparse_sink O R den L) p c d r _ Hp Hd H).
Qed.

Theorem C26_signed_never_errs : forall T (O : num T) R den, lawful O R den -> can_negate O = true ->
  forall c d r e, (d <= USIZE_MAX)%N ->
  (forall l, vec_ok O l -> dense_try_add_term O l c d = Ok (r, e) \/ dense_try_sub_term O l c d = Ok (r, e) -> e = None) /\
  (forall m r, swf m -> sparse_try_add_term O m c d = Ok (r, e) \/ sparse_try_sub_term O m c d = Ok (r, e) -> e = None).
Proof.
  intros T O R den L Hn c d r e Hd. split.
  - intros p Hp [H|H]; [apply (proj1 (dense_no_err O R den L p c d r e Hn Hp Hd) H)|apply (proj2 (dense_no_err O R den L p c d r e Hn Hp Hd) H)].
  - intros p r' Hp [H|H]; [apply (proj1 (sparse_no_err O R den L p c d r' e Hn Hp Hd) H)|apply (proj2 (sparse_no_err O R den L p c d r' e Hn Hp Hd) H)].
Qed.

(** Exactly when a call returns rather than panics. *)
Theorem C26_dense_returns : forall T (O : num T) R den fits, lawful O R den -> fits_ops O R den fits ->
  forall l c d, vec_ok O l -> (d < USIZE_MAX)%N -> let p := dcoef R den l in
  ((exists r, dense_try_add_term O l c d = Ok r) <->
     (d + 1 <= n_max_len O)%N /\ fits (radd (p (N.to_nat d)) (den c))) /\
  ((exists r, dense_try_sub_term O l c d = Ok r) <->
     (((len l <= d)%N -> can_negate O = true) -> (d + 1 <= n_max_len O)%N /\ fits (rsub (p (N.to_nat d)) (den c)))).
Proof.
  intros T O R den fits L F l c d Hv Hd p. subst p. split.
  - rewrite <- (dense_add_term_returns O R den L fits F l c d Hv Hd). unfold dense_try_add_term. split.
    + intros (r & H). inv_ok. eauto.
    + intros (r & H). rewrite H. cbn [bind]. eauto.
  - rewrite dense_try_sub_term_upd, uadd_small by lia. cbn [bind].
    pose proof (upd_term_returns O R den L l d (fun x => sub O x c) Hv Hd) as U.
    assert (Q : (exists x y, sub O x c = Ok y /\ den x = dcoef R den l (N.to_nat d)) <-> fits (rsub (dcoef R den l (N.to_nat d)) (den c))).
    { split.
      - intros (x & y & Hs & <-). apply (fo_sub _ _ _ _ F). eauto.
      - intros Hf. destruct (coef_rep O R den L l (N.to_nat d)) as (x & Hx). rewrite <- Hx in Hf. apply (fo_sub _ _ _ _ F) in Hf.
        destruct Hf as (y & Hy). eauto. }
    rewrite Q in U. clear Q.
    destruct (N.ltb_spec (len l) (d + 1)) as [Hl|Hl]; destruct (can_negate O); cbn [andb negb].
    + split; [|intros H].
      * intros (r & H) _. inv_ok. apply U. eauto.
      * destruct (proj2 U (H ltac:(auto))) as (r & ->). cbn [bind]. eauto.
    + split; [|eauto]. intros _ X. specialize (X ltac:(lia)). discriminate X.
    + split; [|intros H].
      * intros (r & H) _. inv_ok. apply U. eauto.
      * destruct (proj2 U (H ltac:(auto))) as (r & ->). cbn [bind]. eauto.
    + split; [|intros H].
      * intros (r & H) _. inv_ok. apply U. eauto.
      * destruct (proj2 U (H ltac:(lia))) as (r & ->). cbn [bind]. eauto.
Qed.

Theorem C26_sparse_returns : forall T (O : num T) R den fits, lawful O R den -> fits_ops O R den fits ->
  forall m c d, swf m -> let p := scoef R den m in
  ((exists r, sparse_try_add_term O m c d = Ok r) <-> fits (radd (p (N.to_nat d)) (den c))) /\
  ((exists r, sparse_try_sub_term O m c d = Ok r) <->
     ((m_get d m = None -> can_negate O = true) -> fits (rsub (p (N.to_nat d)) (den c)))).
Proof.
  intros T O R den fits L F m c d Hm p. subst p. split.
  - rewrite <- (sparse_add_term_returns O R den L fits F m c d Hm). unfold sparse_try_add_term. split.
    + intros (r & H). inv_ok. eauto.
    + intros (r & H). rewrite H. cbn [bind]. eauto.
  - unfold sparse_try_sub_term. rewrite scoef_get, N2Nat.id by apply Hm. destruct (is_zero O c) eqn:Ez.
    + split; [intros _ _|eauto]. apply (lw_is_zero _ _ _ L) in Ez. rewrite Ez, rsub_r0.
      destruct (m_get d m); [|rewrite <- (lw_zero _ _ _ L)]; apply (fo_den _ _ _ _ F).
    + destruct (m_get d m) as [v|].
      * rewrite <- (fo_sub _ _ _ _ F v c). split.
        -- intros (r & H) _. inv_ok. eauto.
        -- intros H. destruct (H ltac:(discriminate)) as (y & ->). cbn [bind]. eauto.
      * rewrite <- (lw_zero _ _ _ L), <- (fo_sub _ _ _ _ F (zero O) c). destruct (can_negate O); cbn [negb].
        -- split.
           ++ intros (r & H) _. inv_ok. eauto.
           ++ intros H. destruct (H ltac:(auto)) as (y & ->). cbn [bind]. eauto.
        -- split; [|eauto]. intros _ H. specialize (H eq_refl). discriminate H.
Qed.

(** The histories of an i32 and a u8 polynomial. *)
Example C26_case :
  rmap (fun x => (map ival (fst x), snd x))
    (run (dense_mut (int_num true I32)) (fun _ => dense_zero)
       [CallAdd (mk_int I32 9) 7; CallReset; CallAdd (mk_int I32 5) 2; CallSub (mk_int I32 7) 3; CallAdd (mk_int I32 1) 0; CallSub (mk_int I32 5) 2] [])
  = Ok ([-7; 0; 0; 1]%Z, [None; None; None; None; None; None]) /\
  rmap (fun x => (map (fun kv => (fst kv, ival (snd kv))) (fst x), snd x))
    (run (sparse_mut (int_num true U8)) (fun _ => [])
       [CallAdd (mk_int U8 5) 2; CallSub (mk_int U8 7) 3; CallSub (mk_int U8 2) 2; CallSub (mk_int U8 0) 9] [])
  = Ok ([(2%N, 3%Z)], [None; Some CanNotNegate; None; None]).
Proof. split; vm_compute; reflexivity. Qed.

(** ** C28 *)

(** The growable types accept a zero term at every degree that can be stored. *)
Theorem C28_zero_term_partial : forall T (O : num T) R den fits, lawful O R den -> fits_ops O R den fits ->
  forall c d, den c = r0 ->
  (forall m, sparse_try_add_term O m c d = Ok (m, None) /\ sparse_try_sub_term O m c d = Ok (m, None)) /\
  (forall l, vec_ok O l -> (d + 1 <= n_max_len O)%N ->
     (exists r, dense_try_add_term O l c d = Ok (r, None) /\ peq (dcoef R den r) (dcoef R den l)) /\
     (can_negate O = true \/ (d < len l)%N ->
        exists r, dense_try_sub_term O l c d = Ok (r, None) /\ peq (dcoef R den r) (dcoef R den l))).
Proof.
  intros T O R den fits L F c d Hc. split.
  - intros m. unfold sparse_try_add_term, sparse_add_term, sparse_try_sub_term.
    assert (E : is_zero O c = true) by (apply (lw_is_zero _ _ _ L), Hc). rewrite E. split; reflexivity.
  - intros l Hv Hd. pose proof (lw_cap _ _ _ L) as Hcap.
    assert (Hm : (d < USIZE_MAX)%N) by (unfold USIZE_MAX; lia).
    destruct (C26_dense_returns T O R den fits L F l c d Hv Hm) as [A B].
    assert (Hf : fits (dcoef R den l (N.to_nat d))).
    { destruct (coef_rep O R den L l (N.to_nat d)) as (x & <-). apply (fo_den _ _ _ _ F). }
    rewrite Hc, radd_r0 in A. rewrite Hc, rsub_r0 in B. split.
    + destruct (proj2 A (conj Hd Hf)) as ([r e] & H).
      destruct (sk_add _ _ _ _ _ (dense_sink O R den L) l c d r e Hv ltac:(lia) H) as [_ X].
      assert (e = None) as -> by (unfold dense_try_add_term in H; inv_ok; injection H as <- <-; reflexivity).
      exists r. split; [exact H|]. intros i. rewrite (X i). unfold padd, pmono. rewrite Hc.
      destruct (Nat.eqb i (N.to_nat d)); apply radd_r0.
    + intros Hn. destruct (proj2 B (fun _ => conj Hd Hf)) as ([r e] & H).
      destruct (dense_try_sub_term_spec O R den L l c d r e Hv Hm H) as [(-> & _ & X & _)|(_ & _ & X & Y)].
      * exists r. split; [exact H|]. intros i. rewrite (X i). unfold psub, pmono. rewrite Hc.
        destruct (Nat.eqb i (N.to_nat d)); apply rsub_r0.
      * destruct Hn; [congruence|lia].
Qed.

(** Every fixed-size type rejects the zero term at the degrees it does not store, and an
    unsigned dense polynomial rejects the subtraction of a zero term beyond its length. *)
Theorem C28_zero_term_refuted : forall T (O : num T) R den, lawful O R den ->
  (forall m d, ~ peq (mpoly R den m) pzero -> d <> mdeg m ->
     mono_try_add_term O m (zero O) d = Ok (m, Some TooManyTerms) /\ mono_try_sub_term O m (zero O) d = Ok (m, Some TooManyTerms)) /\
  (forall b d, (1 < d)%N -> bino_try_add_term O b (zero O) d = Ok (b, Some DegreeOutOfBounds) /\
                            bino_try_sub_term O b (zero O) d = Ok (b, Some DegreeOutOfBounds)) /\
  (forall b d, (2 < d)%N -> trino_try_add_term O b (zero O) d = Ok (b, Some DegreeOutOfBounds) /\
                            trino_try_sub_term O b (zero O) d = Ok (b, Some DegreeOutOfBounds)) /\
  (forall a d, (len a <= d)%N -> arr_try_add_term O a (zero O) d = Ok (a, Some DegreeOutOfBounds) /\
                                 arr_try_sub_term O a (zero O) d = Ok (a, Some DegreeOutOfBounds)) /\
  (can_negate O = false -> forall l d, (len l <= d < USIZE_MAX)%N ->
     dense_try_sub_term O l (zero O) d = Ok (l, Some CanNotNegate)).
Proof.
  intros T O R den L. split; [|split; [|split; [|split]]].
  - intros m d Hm Hd. unfold mono_try_add_term, mono_try_sub_term.
    destruct (mono_is_zero O m) eqn:E; [apply (mono_is_zero_poly O R den L) in E; contradiction|].
    destruct (N.eqb_spec d (mdeg m)); [contradiction|]. split; reflexivity.
  - intros b d Hd. unfold bino_try_add_term, bino_try_sub_term. destruct (N.leb_spec d 1); [lia|]. split; reflexivity.
  - intros b d Hd. unfold trino_try_add_term, trino_try_sub_term. destruct (N.leb_spec d 2); [lia|]. split; reflexivity.
  - intros b d Hd. unfold arr_try_add_term, arr_try_sub_term. destruct (N.ltb_spec d (len b)); [lia|]. split; reflexivity.
  - intros Hn l d Hd. unfold dense_try_sub_term. rewrite uadd_small by lia. cbn [bind].
    destruct (N.ltb_spec (len l) (d + 1)); [|lia]. rewrite Hn. reflexivity.
Qed.

Example C28_case : mono_try_add_term (int_num true I32) (imono I32 2 3) (mk_int I32 0) 1 = Ok (imono I32 2 3, Some TooManyTerms) /\
  sparse_try_sub_term (int_num true U8) [] (mk_int U8 0) 4 = Ok ([], None) /\
  dense_try_sub_term (int_num true U8) [] (mk_int U8 0) 4 = Ok ([], Some CanNotNegate).
Proof. split; [|split]; vm_compute; reflexivity. Qed.

(** ** C29 *)

(** The error is returned, and nothing changes, when no coefficient is stored there. *)
Theorem C29_unsigned_missing_partial : forall chk t, signed t = false -> forall c d,
  (forall l, (len l <= d < USIZE_MAX)%N ->
     dense_try_sub_term (int_num chk t) l c d = Ok (l, Some CanNotNegate)) /\
  (forall m : bmap (int t), m_get d m = None -> ival c <> 0%Z ->
     sparse_try_sub_term (int_num chk t) m c d = Ok (m, Some CanNotNegate)).
Proof.
  intros chk t Ht c d. split.
  - intros l Hd. unfold dense_try_sub_term. rewrite uadd_small by lia. cbn [bind].
    destruct (N.ltb_spec (len l) (d + 1)); [|lia]. cbn [can_negate int_num]. rewrite Ht. reflexivity.
  - intros m Hm Hc. unfold sparse_try_sub_term. cbn [is_zero can_negate int_num].
    destruct (Z.eqb_spec (ival c) 0); [contradiction|]. rewrite Hm, Ht. reflexivity.
Qed.

(** When a smaller coefficient is stored there, the call panics with overflow checks and
    wraps around, reporting success, without. *)
Theorem C29_unsigned_stored_refuted : forall t, signed t = false -> forall c d,
  (forall l, vec_ok (int_num true t) l -> (d < len l)%N -> (dcoef Z_ring ival l (N.to_nat d) < ival c)%Z ->
     (forall r, dense_try_sub_term (int_num true t) l c d <> Ok r) /\
     exists r, dense_try_sub_term (int_num false t) l c d = Ok (r, None) /\
       (dcoef Z_ring ival r (N.to_nat d) = dcoef Z_ring ival l (N.to_nat d) - ival c + 2 ^ bits t)%Z) /\
  (forall (m : bmap (int t)) v, m_get d m = Some v -> (ival v < ival c)%Z ->
     sparse_try_sub_term (int_num true t) m c d = Panic POverflow /\
     exists r, sparse_try_sub_term (int_num false t) m c d = Ok (r, None) /\
       exists v', m_get d r = Some v' /\ (ival v' = ival v - ival c + 2 ^ bits t)%Z).
Proof.
  intros t Ht c d.
  assert (W : forall v : Z, in_range t v = true -> (v < ival c)%Z ->
            wrap t (v - ival c) = (v - ival c + 2 ^ bits t)%Z /\ in_range t (v - ival c) = false).
  { intros v Hv Hlt. pose proof (ival_ok c) as Hc. unfold in_range, imin, imax, wrap, imod in *. rewrite Ht in *.
    assert (0 < 2 ^ bits t)%Z by (destruct t; cbn; lia). split; [|lia].
    unfold imin. rewrite Ht, Z.add_0_l, Z.sub_0_r. symmetry. apply Z.mod_unique_pos with (-1)%Z; lia. }
  split.
  - intros l Hv Hd Hlt.
    assert (Hcap : (n_max_len (int_num true t) <= USIZE_MAX)%N).
    { pose proof (lw_cap _ _ _ (checked_lawful t)). unfold USIZE_MAX. lia. }
    assert (Hm : (d < USIZE_MAX)%N) by (unfold vec_ok in Hv; lia).
    destruct (coef_rep _ _ _ (checked_lawful t) l (N.to_nat d)) as (x & Hx). cbn [Z_ring car] in x, Hx.
    rewrite <- Hx in Hlt |- *. destruct (W (ival x) (ival_ok x) Hlt) as [W1 W2]. split.
    + intros r H.
      assert (E : exists r, dense_try_sub_term (int_num true t) l c d = Ok r) by eauto.
      apply (proj2 (C26_dense_returns _ _ _ _ _ (checked_lawful t) (checked_fits t) l c d Hv Hm)) in E; [|lia].
      destruct E as [_ E]. rewrite <- Hx in E. cbn [rsub Z_ring] in E. rewrite W2 in E. discriminate E.
    + assert (Hv' : vec_ok (int_num false t) l) by exact Hv.
      destruct (proj2 (proj2 (C26_dense_returns _ _ _ _ _ (wrapping_lawful t) (total_fits _ _ _ (wrapping_total t)) l c d Hv' Hm)))
        as ([r e] & H). { intros _. split; [unfold vec_ok in Hv'; cbn [n_max_len int_num] in *; lia|exact I]. }
      exists r. destruct (dense_try_sub_term_spec _ _ _ (wrapping_lawful t) l c d r e Hv' Hm H) as [(-> & _ & X & _)|(_ & _ & _ & X)]; [|lia].
      split; [exact H|]. specialize (X (N.to_nat d)). unfold psub, pmono in X. rewrite Nat.eqb_refl in X.
      rewrite <- (dcoef_ival t r), X. rewrite <- (dcoef_ival t l) in Hx. cbn [rsub w_ring]. unfold w_sub. cbn [ival mk_int].
      rewrite <- Hx. exact W1.
  - intros m v Hg Hlt. destruct (W (ival v) (ival_ok v) Hlt) as [W1 W2].
    assert (Hc : is_zero (int_num true t) c = false).
    { cbn. pose proof (ival_ok v) as Hv. unfold in_range, imin in Hv. rewrite Ht in Hv. lia. }
    unfold sparse_try_sub_term. cbn [is_zero int_num] in *. rewrite Hc, Hg. cbn [sub int_num]. unfold arith. rewrite W2. cbn [bind].
    split; [reflexivity|]. eexists. split; [reflexivity|]. exists (mk_int t (ival v - ival c)). split; [|exact W1].
    rewrite m_get_insert, N.eqb_refl. reflexivity.
Qed.

Example C29_case : dense_try_sub_term (int_num true U8) [mk_int U8 3] (mk_int U8 5) 0 = Panic POverflow /\
  rmap (fun r => (map ival (fst r), snd r)) (dense_try_sub_term (int_num false U8) [mk_int U8 3] (mk_int U8 5) 0) = Ok ([254]%Z, None) /\
  dense_try_sub_term (int_num true U8) [mk_int U8 3] (mk_int U8 5) 1 = Ok ([mk_int U8 3], Some CanNotNegate).
Proof. split; [|split]; vm_compute; reflexivity. Qed.

(** ** C30 *)

(** The six types are sinks. *)
Theorem C30_sinks : forall T (O : num T) R den, lawful O R den ->
  sink_laws R den (dense_mut O) (vec_ok O) (dcoef R den) /\
  sink_laws R den (sparse_mut O) swf (scoef R den) /\
  sink_laws R den (mono_mut O) (fun _ => True) (mpoly R den) /\
  sink_laws R den (bino_mut O) (fun _ => True) (bpoly R den) /\
  sink_laws R den (trino_mut O) (fun _ => True) (tpoly R den) /\
  (forall n, sink_laws R den (arr_mut O) (fun a => length a = n) (dcoef R den)).
Proof.
  intros T O R den L. split; [apply (dense_sink O R den L)|]. split; [apply (sparse_sink O R den L)|].
  split; [apply (mono_sink O R den L)|]. split; [apply (bino_sink O R den L)|].
  split; [apply (trino_sink O R den L)|]. intros n. apply (arr_sink O R den L).
Qed.

Theorem C30_add_sub_poly : forall T P R (den : T -> car R) (S : mutpoly T P) inv rd, sink_laws R den S inv rd ->
  forall ts p r e, inv p -> degrees_ok ts ->
  (add_poly S ts p = Ok (r, e) -> inv r /\
     match e with
     | None => peq (rd r) (padd (rd p) (terms_coef (dterms R den ts)))
     | Some k => exists done c d rest, ts = done ++ (c, d) :: rest /\
         peq (rd r) (padd (rd p) (terms_coef (dterms R den done))) /\ s_add S r c d = Ok (r, Some k)
     end) /\
  (sub_poly S ts p = Ok (r, e) -> inv r /\
     match e with
     | None => peq (rd r) (psub (rd p) (terms_coef (dterms R den ts)))
     | Some k => exists done c d rest, ts = done ++ (c, d) :: rest /\
         peq (rd r) (psub (rd p) (terms_coef (dterms R den done))) /\ s_sub S r c d = Ok (r, Some k)
     end).
Proof.
  intros T P R den S inv rd HS ts p r e Hp Hts. split; intros H.
  - apply (apply_terms_spec R den inv rd padd (s_add S) (or_introl eq_refl) (sk_add _ _ _ _ _ HS) ts p r e Hp Hts H).
  - apply (apply_terms_spec R den inv rd psub (s_sub S) (or_intror eq_refl) (sk_sub _ _ _ _ _ HS) ts p r e Hp Hts H).
Qed.

(** Adding the terms a polynomial lists adds that polynomial. *)
Theorem C30_add_polynomial : forall T P R (den : T -> car R) (S : mutpoly T P) inv rd, sink_laws R den S inv rd ->
  forall ts q p r, is_listing q (dterms R den ts) -> inv p -> degrees_ok ts ->
  (add_poly S ts p = Ok (r, None) -> peq (rd r) (padd (rd p) q)) /\
  (sub_poly S ts p = Ok (r, None) -> peq (rd r) (psub (rd p) q)).
Proof.
  intros T P R den S inv rd HS ts q p r (_ & _ & Hq) Hp Hts.
  destruct (C30_add_sub_poly T P R den S inv rd HS ts p r None Hp Hts) as [A B]. split; intros H.
  - destruct (A H) as [_ X]. intros i. rewrite (X i). unfold padd. rewrite (Hq i). reflexivity.
  - destruct (B H) as [_ X]. intros i. rewrite (X i). unfold psub. rewrite (Hq i). reflexivity.
Qed.

(** mul_poly_vec adds the product of the two term lists; on an error, the products before
    the failing one have been added. *)
Theorem C30_mul_poly_vec : forall T (O : num T) P R (den : T -> car R) (S : mutpoly T P) inv rd,
  lawful O R den -> sink_laws R den S inv rd ->
  forall rhs lhs p r e, inv p ->
  (forall a b, In a rhs -> In b lhs -> (snd a + snd b <= USIZE_MAX)%N) ->
  mul_poly_vec O S rhs lhs p = Ok (r, e) -> inv r /\
  match e with
  | None => peq (rd r) (padd (rd p) (pmul (terms_coef (dterms R den lhs)) (terms_coef (dterms R den rhs))))
  | Some k => exists done c d rest, prods R den rhs lhs = done ++ (den c, d) :: rest /\
      peq (rd r) (padd (rd p) (terms_coef done)) /\ s_add S r c d = Ok (r, Some k)
  end.
Proof.
  intros T O P R den S inv rd L HS rhs lhs p r e Hp Hd H.
  destruct (mul_poly_vec_spec R den inv rd O L S HS lhs rhs p r e Hp) as [Hr A].
  - apply Forall_forall. intros a Ha. apply Forall_forall. intros b Hb. auto.
  - exact H.
  - split; [exact Hr|]. destruct e as [k|]; cbn [prefix_run] in A; [exact A|].
    intros i. rewrite (A i). unfold padd. f_equal. rewrite (prods_coef R den rhs lhs i). apply pmul_comm.
Qed.

(** poly_add!(sink; ...) and poly_sub!(sink; ...): Ok means that all operands were applied. *)
Theorem C30_macros_into : forall T P R (den : T -> car R) (S : mutpoly T P) inv rd, sink_laws R den S inv rd ->
  forall xs p r, inv p -> Forall degrees_ok xs ->
  (poly_add_into S xs p = Ok (r, None) -> peq (rd r) (padd (rd p) (terms_coef (dterms R den (concat xs))))) /\
  (poly_sub_into S xs p = Ok (r, None) -> peq (rd r) (psub (rd p) (terms_coef (dterms R den (concat xs))))).
Proof.
  intros T P R den S inv rd HS xs p r Hp Hx. split; intros H.
  - apply (apply_all_spec R den inv rd padd (s_add S) (or_introl eq_refl) (sk_add _ _ _ _ _ HS) xs p r None Hp Hx H). reflexivity.
  - apply (apply_all_spec R den inv rd psub (s_sub S) (or_intror eq_refl) (sk_sub _ _ _ _ _ HS) xs p r None Hp Hx H). reflexivity.
Qed.

(** In general each operand is applied up to its first failing term, later operands are
    still applied, and the first error is reported ([contrib], MutFacts.v). *)
Theorem C30_macros_errors : forall T P R (den : T -> car R) (S : mutpoly T P) inv rd, sink_laws R den S inv rd ->
  forall xs p r e, inv p -> Forall degrees_ok xs ->
  (poly_add_into S xs p = Ok (r, e) -> contrib R den rd (s_add S) padd p xs r e) /\
  (poly_sub_into S xs p = Ok (r, e) -> contrib R den rd (s_sub S) psub p xs r e).
Proof.
  intros T P R den S inv rd HS xs p r e Hp Hx. split; intros H.
  - apply (apply_all_contrib R den inv rd padd (s_add S) (or_introl eq_refl) (sk_add _ _ _ _ _ HS) xs p r e Hp Hx H).
  - apply (apply_all_contrib R den inv rd psub (s_sub S) (or_intror eq_refl) (sk_sub _ _ _ _ _ HS) xs p r e Hp Hx H).
Qed.

(** Into a Polynomial, poly_add! never errs. *)
Theorem C30_poly_add_never_errs : forall T (O : num T) xs p r e,
  poly_add_into (dense_mut O) xs p = Ok (r, e) -> e = None.
Proof.
  intros T O xs p r e H.
  assert (A : forall ts p r e, apply_terms (s_add (dense_mut O)) ts p = Ok (r, e) -> e = None).
  { induction ts as [|[c d] ts IH]; intros q r' e' E; cbn [apply_terms] in E; [injection E as <- <-; reflexivity|].
    cbn [s_add dense_mut] in E. unfold dense_try_add_term in E at 1. inv_ok. cbn [fst snd] in E. eapply IH, E. }
  revert p r e H. unfold poly_add_into. induction xs as [|x xs IH]; intros p r e H; cbn [apply_all] in H.
  - injection H as <- <-. reflexivity.
  - inv_ok. injection H as <- <-. destruct v as [q k], v0 as [q' k']. apply A in E. apply IH in E0. cbn. subst. reflexivity.
Qed.

(** poly_add!(x, ...) is the sum of its operands. *)
Theorem C30_poly_add_sum : forall T (O : num T) R den, lawful O R den -> forall xs r, Forall degrees_ok xs ->
  poly_add_macro O xs = Ok r -> vec_ok O r /\ peq (dcoef R den r) (terms_coef (dterms R den (concat xs))).
Proof.
  intros T O R den L xs r Hx H. unfold poly_add_macro in H. inv_ok. destruct v as [q e]. pose proof (lw_cap _ _ _ L) as Hcap.
  pose proof (C30_poly_add_never_errs T O xs _ _ _ E) as ->.
  destruct (apply_all_spec R den (vec_ok O) (dcoef R den) padd (s_add (dense_mut O)) (or_introl eq_refl)
    (sk_add _ _ _ _ _ (dense_sink O R den L)) xs dense_zero q None ltac:(unfold vec_ok, dense_zero, len; cbn; lia) Hx E) as [A B].
  split; [exact A|]. intros i. cbn [fst]. rewrite (B eq_refl i). unfold padd, dense_zero. rewrite dcoef_nil.
  rewrite (Radd_0_l (r_theory R)). reflexivity.
Qed.

(** With arithmetic that always returns, so does poly_add! for degrees that can be stored. *)
Theorem C30_poly_add_total : forall T (O : num T) R den, lawful O R den -> total_ops O -> forall xs,
  Forall (Forall (fun t => (snd t + 1 <= n_max_len O)%N)) xs -> exists r, poly_add_macro O xs = Ok r.
Proof.
  intros T O R den L HT xs Hx. pose proof (lw_cap _ _ _ L) as Hcap. unfold poly_add_macro, poly_add_into.
  assert (A : forall ts p, vec_ok O p -> Forall (fun t => (snd t + 1 <= n_max_len O)%N) ts ->
            exists r, apply_terms (s_add (dense_mut O)) ts p = Ok (r, None) /\ vec_ok O r).
  { induction ts as [|[c d] ts IH]; intros p Hp Hts; cbn [apply_terms]; [eauto|].
    inversion Hts as [|? ? Hd Hts']; subst. cbn [snd] in Hd. cbn [s_add dense_mut]. unfold dense_try_add_term at 1.
    destruct (dense_add_term_total O R den L HT p c d Hp Hd) as (q & Hq). rewrite Hq. cbn [bind fst snd].
    apply IH; [|exact Hts']. apply (dense_add_term_spec O R den L) in Hq; [tauto|exact Hp|unfold USIZE_MAX; lia]. }
  assert (B : forall p, vec_ok O p -> exists r, apply_all (s_add (dense_mut O)) xs p = Ok (r, None)).
  { induction Hx as [|x xs Hx _ IH]; intros p Hp; cbn [apply_all]; [eauto|].
    destruct (A x p Hp Hx) as (q & -> & Hq). cbn [bind fst snd]. destruct (IH q Hq) as (r & ->). cbn. eauto. }
  destruct (B dense_zero) as (r & ->); [unfold vec_ok, dense_zero, len; cbn; lia|]. cbn. eauto.
Qed.

Example C30_case :
  let O := int_num true I32 in
  rmap (map ival) (poly_add_macro O [izt I32 [(3, 2%N); (1, 0%N)]; izt I32 [(-3, 2%N)]; izt I32 [(4, 1%N)]]%Z) = Ok [0; 4; 1]%Z /\
  rmap (fun x => (bread (fst x), snd x)) (poly_add_into (bino_mut O) [izt I32 [(3, 2%N); (1, 0%N)]; izt I32 [(4, 1%N); (7, 5%N); (9, 0%N)]; izt I32 [(8, 0%N)]]%Z (ibino I32 0 1))
    = Ok ([4; 9]%Z, Some DegreeOutOfBounds) /\
  rmap (fun x => (map ival (fst x), snd x)) (mul_poly_vec O (dense_mut O) (izt I32 [(2, 1%N); (5, 0%N)]%Z) (izt I32 [(1, 1%N); (-1, 0%N)]%Z) (map (mk_int I32) [1; 1]%Z))
    = Ok ([2; 4; -4]%Z, None).
Proof. split; [|split]; vm_compute; reflexivity. Qed.

(** ** C31 *)

(** For signed types poly_sub!(a, b, ...) is a - (b + ...). *)
Theorem C31_poly_sub_signed_partial : forall T (O : num T) R den, lawful O R den -> can_negate O = true ->
  forall lhs xs r, degrees_ok lhs -> Forall degrees_ok xs -> poly_sub_macro O lhs xs = Ok r ->
  peq (dcoef R den r) (psub (terms_coef (dterms R den lhs)) (terms_coef (dterms R den (concat xs)))).
Proof.
  intros T O R den L Hn lhs xs r Hl Hx H. unfold poly_sub_macro in H. inv_ok. destruct v as [q e], v0 as [r e'].
  cbn [fst] in *.
  assert (Q : poly_add_macro O [lhs] = Ok q) by (unfold poly_add_macro; rewrite E; reflexivity).
  destruct (C30_poly_add_sum T O R den L [lhs] q ltac:(auto) Q) as [Hq A]. cbn [concat] in A. rewrite app_nil_r in A.
  assert (e' = None) as ->.
  { destruct (apply_all_no_err (vec_ok O) (s_sub (dense_mut O))) with (xs := xs) (p := q) (r := r) (e := e') as [_ X]; auto.
    intros p c d r' e1 Hp Hd Hs. split; [apply (sk_sub _ _ _ _ _ (dense_sink O R den L) p c d r' e1 Hp Hd Hs)|].
    apply (proj2 (dense_no_err O R den L p c d r' e1 Hn Hp Hd) Hs). }
  destruct (C30_macros_into T _ R den _ _ _ (dense_sink O R den L) xs q r Hq Hx) as [_ B].
  intros i. rewrite (B E0 i). unfold psub. rewrite (A i). reflexivity.
Qed.

(** For unsigned types an operand whose leading term has a higher degree than the value
    computed so far is not subtracted at all, not even its other terms, and no error is
    reported. *)
Theorem C31_poly_sub_unsigned_refuted : forall chk t, signed t = false ->
  forall lhs c d rest r, (len r <= d < USIZE_MAX)%N -> 
  poly_add_macro (int_num chk t) [lhs] = Ok r ->
  poly_sub_macro (int_num chk t) lhs [(c, d) :: rest] = Ok r.
Proof.
  intros chk t Ht lhs c d rest r Hd H. unfold poly_add_macro in H. inv_ok. destruct v as [q e]. cbn [fst] in *.
  unfold poly_sub_macro. rewrite E. cbn [bind fst]. unfold poly_sub_into. cbn [apply_all apply_terms s_sub dense_mut].
  destruct (C29_unsigned_missing_partial chk t Ht c d) as [A _]. rewrite (A q Hd). reflexivity.
Qed.

(** 5 - (x + 3) = 5, where the constant terms alone would give 2. *)
Example C31_case : rmap (map ival) (poly_sub_macro (int_num true U32) (izt U32 [(5, 0%N)]%Z) [izt U32 [(1, 1%N); (3, 0%N)]%Z]) = Ok [5]%Z /\
  rmap (map ival) (poly_sub_macro (int_num true U32) (izt U32 [(5, 0%N)]%Z) [izt U32 [(3, 0%N)]%Z]) = Ok [2]%Z /\
  rmap (map ival) (poly_sub_macro (int_num true I32) (izt I32 [(5, 0%N)]%Z) [izt I32 [(1, 1%N); (3, 0%N)]%Z; izt I32 [(1, 0%N)]%Z]) = Ok [-1; 1]%Z.
Proof. split; [|split]; vm_compute; reflexivity. Qed.
