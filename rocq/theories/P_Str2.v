(** Properties C35 and C38: parsing a whole polynomial. *)

From Coq Require Import String Ascii List NArith ZArith Lia Bool Ring Arith Sorted Permutation.
From Coq Require Import ZifyBool ZifyNat ZifyN.
From Verif Require Import Base Num Spec SpecFacts Laws Terms Dense Sparse Mono Bino Trino.
From Verif Require Import DenseFacts DenseMut DenseDiv SparseFacts SparseCalc FixedFacts P_Dense1 P_Sparse1 P_Fixed1.
From Verif Require Import PolyMath MutFacts P_Mut Strs StrFacts StrShow P_Str.
Import ListNotations.

(** The polynomial of one parsed term, and of a list of them. *)
Definition term_poly {T} (R : comring) (den : T -> car R) (t : term T) : poly R :=
  match t with ZeroTerm => pzero | TTerm c d => pmono (den c) (N.to_nat d) end.
Definition terms_sum {T} (R : comring) (den : T -> car R) (ts : list (term T)) : poly R :=
  fold_right (fun t p => padd (term_poly R den t) p) pzero ts.

(** Each token is accepted and read as the corresponding term. *)
Definition parsed {T} (O : num T) (X : txt T) (toks : list str) (terms : list (term T)) : Prop :=
  Forall2 (fun k t => term_from_str O X k = inl t) toks terms.

Section Degrees.
Context {T : Type} (O : num T) (X : txt T).
Definition pairs (terms : list (term T)) : list (T * N) :=
  flat_map (fun t => match t with ZeroTerm => [] | TTerm c d => [(c, d)] end) terms.

Lemma parse_usize_max s d : parse_usize s = Some d -> (d <= USIZE_MAX)%N.
Proof.
  unfold parse_usize. destruct (parse_Z Usize s) as [z|] eqn:E; [|discriminate]. intros [= <-].
  destruct (C36_integer_text_only Usize s z E) as (_ & _ & _ & H). unfold in_range in H.
  change (imin Usize) with 0%Z in H. change (imax Usize) with (Z.of_N USIZE_MAX) in H. lia.
Qed.
Lemma term_degree_max k c d : term_from_str O X k = inl (TTerm c d) -> (d <= USIZE_MAX)%N.
Proof.
  intros H. apply C36_term_language in H. remember (TTerm c d) as t eqn:Et.
  assert (G : forall v e, term_new O v e = TTerm c d -> e = d).
  { intros v e E. unfold term_new in E. destruct (is_zero O v); [discriminate|]. injection E as _ E. exact E. }
  destruct H as [n v _ _|n v _|n v e d' _ _ _ Hd|n v e1 e2 d' _ _ _ _ Hd]; apply G in Et; subst d.
  - unfold USIZE_MAX. lia.
  - unfold USIZE_MAX. lia.
  - eapply parse_usize_max, Hd.
  - eapply parse_usize_max, Hd.
Qed.
Lemma pairs_fine toks terms : parsed O X toks terms -> Forall (fun t => (snd t <= USIZE_MAX)%N) (pairs terms).
Proof.
  induction 1 as [|k t ks ts E H IH]; cbn [pairs flat_map]; [constructor|]. destruct t as [|c d]; [exact IH|].
  constructor; [eapply term_degree_max, E|exact IH].
Qed.
End Degrees.

Section Parsed.
Context {T : Type} (O : num T) (X : txt T) (R : comring) (den : T -> car R).
Add Ring Rring_ps2 : (r_theory R).

Lemma terms_sum_pairs terms : peq (terms_coef (dterms R den (pairs terms))) (terms_sum R den terms).
Proof.
  induction terms as [|[|c d] ts IH]; intros i; [reflexivity| |]; specialize (IH i); cbn [pairs flat_map app terms_sum fold_right term_poly].
  - fold (pairs ts). fold (terms_sum R den ts). unfold padd, pzero. rewrite IH. ring.
  - fold (pairs ts). fold (terms_sum R den ts). cbn [dterms map terms_coef fst snd]. fold (dterms R den (pairs ts)). unfold padd in *. rewrite IH. reflexivity.
Qed.

Lemma terms_sum_app a b : peq (terms_sum R den (a ++ b)) (padd (terms_sum R den a) (terms_sum R den b)).
Proof.
  induction a as [|t a IH]; intros i; cbn [app terms_sum fold_right].
  - change (fold_right _ pzero b) with (terms_sum R den b). unfold padd, pzero. ring.
  - fold (terms_sum R den (a ++ b)). fold (terms_sum R den a). unfold padd in *. rewrite IH. ring.
Qed.
Lemma terms_sum_perm a b : Permutation a b -> peq (terms_sum R den a) (terms_sum R den b).
Proof.
  induction 1 as [|t a b _ IH|t u a|a b c _ IH1 _ IH2]; intros i; [reflexivity| | |rewrite IH1; apply IH2];
    cbn [terms_sum fold_right]; fold (terms_sum R den a); try fold (terms_sum R den b); unfold padd in *.
  - rewrite IH. reflexivity.
  - ring.
Qed.

Lemma parse_all_split toks : exists toks1 rest terms, toks = toks1 ++ rest /\ parsed O X toks1 terms /\
  fst (parse_all O X toks) = pairs terms /\
  match snd (parse_all O X toks) with
  | None => rest = []
  | Some e => exists k rest', rest = k :: rest' /\ term_from_str O X k = inr e
  end.
Proof.
  induction toks as [|k toks IH]; cbn [parse_all].
  - exists [], [], []. split; [reflexivity|]. split; [constructor|]. split; reflexivity.
  - destruct (term_from_str O X k) as [t|e] eqn:E.
    + destruct IH as (t1 & rest & terms & Et & Hp & Hf & Hs). exists (k :: t1), rest, (t :: terms).
      split; [rewrite Et; reflexivity|]. split; [constructor; assumption|]. destruct t; cbn [fst snd pairs flat_map app]; fold (pairs terms); rewrite Hf; auto.
    + exists [], (k :: toks), []. split; [reflexivity|]. split; [constructor|]. split; [reflexivity|]. cbn [snd]. eauto.
Qed.
Lemma parse_all_app toks1 terms rest : parsed O X toks1 terms ->
  parse_all O X (toks1 ++ rest) = (pairs terms ++ fst (parse_all O X rest), snd (parse_all O X rest)).
Proof.
  induction 1 as [|k t ks ts E H IH]; cbn [app parse_all]; [apply surjective_pairing|].
  rewrite E. destruct t; rewrite IH; cbn [fst snd pairs flat_map app]; reflexivity.
Qed.

Lemma pairs_app (a b : list (term T)) : pairs (a ++ b) = pairs a ++ pairs b.
Proof. apply flat_map_app. Qed.
Lemma pairs_split (terms : list (term T)) ts1 c d ts2 : pairs terms = ts1 ++ (c, d) :: ts2 ->
  exists a b, terms = a ++ TTerm c d :: b /\ pairs a = ts1.
Proof.
  revert ts1. induction terms as [|t terms IH]; intros ts1 H; [destruct ts1; discriminate|].
  destruct t as [|c' d']; cbn [pairs flat_map app] in H; fold (pairs terms) in H.
  - destruct (IH ts1 H) as (a & b & -> & <-). exists (ZeroTerm :: a), b. split; reflexivity.
  - destruct ts1 as [|t1 ts1].
    + injection H as <- <- _. exists [], terms. split; reflexivity.
    + injection H as <- H. destruct (IH ts1 H) as (a & b & -> & <-). exists (TTerm c' d' :: a), b. split; reflexivity.
Qed.

(** ** Any type with term-wise updates *)
Context {P : Type} (S : mutpoly T P) (inv : P -> Prop) (rd : P -> poly R) (z : P).
Context (HS : sink_laws R den S inv rd) (Hz : inv z) (Hz0 : peq (rd z) pzero).

(** The value of what was parsed. *)
Definition parse_value (from_str : str -> res (P + poly_err)) : Prop :=
  forall s p, from_str s = Ok (inl p) ->
    s <> [] /\ exists toks terms, is_tokenization s toks /\ parsed O X toks terms /\ peq (rd p) (terms_sum R den terms).

(** What each error means. *)
Definition parse_errors (from_str : str -> res (P + poly_err)) : Prop := forall s,
  (from_str s = Ok (inr NoTermsFound) <-> s = []) /\
  (forall e, from_str s = Ok (inr (TermFromString e)) ->
     exists toks k rest terms, is_tokenization s (toks ++ k :: rest) /\ parsed O X toks terms /\ term_from_str O X k = inr e) /\
  (forall e, from_str s = Ok (inr (AddingTerm e)) ->
     exists toks k rest terms c d p, is_tokenization s (toks ++ k :: rest) /\ parsed O X toks terms /\
       term_from_str O X k = inl (TTerm c d) /\ peq (rd p) (terms_sum R den terms) /\ s_add S p c d = Ok (p, Some e)).

Lemma from_z q ts : applied R den rd padd z ts q -> peq (rd q) (terms_coef (dterms R den ts)).
Proof. intros H i. rewrite (H i). unfold padd. rewrite (Hz0 i). unfold pzero. ring. Qed.

Lemma sink_value : parse_value (poly_from_str O X S z).
Proof.
  intros s p H. rewrite poly_from_str_spec in H. destruct s as [|x s]; [discriminate|]. split; [discriminate|].
  remember (x :: s) as s0 eqn:Es. clear Es. destruct (parse_all_split (tokens s0)) as (t1 & rest & terms & Et & Hp & Hf & Hs).
  destruct (apply_terms (s_add S) (fst (parse_all O X (tokens s0))) z) as [[q e]| |] eqn:E; cbn [bind snd fst] in H; try discriminate H.
  destruct e; [discriminate|]. destruct (snd (parse_all O X (tokens s0))); [discriminate|]. injection H as <-. subst rest.
  rewrite app_nil_r in Et. subst t1. rewrite Hf in E.
  destruct (apply_terms_spec R den inv rd padd (s_add S) (or_introl eq_refl) (sk_add _ _ _ _ _ HS) _ z q None Hz (pairs_fine O X _ _ Hp) E) as [_ A].
  exists (tokens s0), terms. split; [apply tokens_tokenization|]. split; [exact Hp|].
  intros i. rewrite (from_z _ _ A i). apply terms_sum_pairs.
Qed.

Lemma sink_errors : parse_errors (poly_from_str O X S z).
Proof.
  intros s. rewrite poly_from_str_spec. destruct s as [|x s].
  { split; [split; reflexivity|]. split; intros e H; discriminate H. }
  remember (x :: s) as s0 eqn:Es. assert (Hne : s0 <> []) by (subst; discriminate). clear Es x s.
  destruct (parse_all_split (tokens s0)) as (t1 & rest & terms & Et & Hp & Hf & Hs).
  pose proof (tokens_tokenization s0) as Htok. rewrite Et in Htok.
  destruct (apply_terms (s_add S) (fst (parse_all O X (tokens s0))) z) as [[q e]| |] eqn:E; cbn [bind snd fst].
  2-3: split; [split; [discriminate|congruence]|split; intros e H; discriminate H].
  rewrite Hf in E.
  pose proof (apply_terms_spec R den inv rd padd (s_add S) (or_introl eq_refl) (sk_add _ _ _ _ _ HS) _ z q e Hz (pairs_fine O X _ _ Hp) E) as [_ A].
  destruct e as [e|].
  - split; [split; [discriminate|congruence]|]. split; intros e' H; [discriminate H|]. injection H as <-.
    destruct A as (ts1 & c & d & ts2 & Eq & A & B). destruct (pairs_split _ _ _ _ _ Eq) as (a & b & -> & Ea).
    apply Forall2_app_inv_r in Hp. destruct Hp as (ka & kb & Ha & Hb & ->). inversion Hb as [|k t kb' b' Hk Hb' E1 E2]; subst.
    exists ka, k, (kb' ++ rest), a, c, d, q. rewrite <- app_assoc in Htok. split; [exact Htok|]. split; [exact Ha|]. split; [exact Hk|].
    split; [|exact B]. intros i. rewrite (from_z _ _ A i). apply terms_sum_pairs.
  - destruct (snd (parse_all O X (tokens s0))) as [e|].
    + split; [split; [discriminate|congruence]|]. split; intros e' H; [|discriminate H]. injection H as <-.
      destruct Hs as (k & rest' & -> & Hk). exists t1, k, rest', terms. auto.
    + split; [split; [discriminate|congruence]|]. split; intros e' H; discriminate H.
Qed.

(** When parsing succeeds. *)
Context (okd : N -> Prop) (fits : car R -> Prop).
Context (Hret : forall p c d, inv p -> (d <= USIZE_MAX)%N ->
  ((exists r, s_add S p c d = Ok (r, None)) <-> okd d /\ fits (radd (rd p (N.to_nat d)) (den c)))).
Context (Hfit : forall p i, inv p -> fits (rd p i)).

Definition term_okd (t : term T) : Prop := match t with ZeroTerm => True | TTerm _ d => okd d end.
Definition parse_ok (from_str : str -> res (P + poly_err)) : Prop := forall s,
  (exists p, from_str s = Ok (inl p)) <->
  s <> [] /\ exists toks terms, is_tokenization s toks /\ parsed O X toks terms /\ Forall term_okd terms /\
    forall n i, fits (terms_sum R den (firstn n terms) i).

Lemma apply_ok toks terms : parsed O X toks terms -> forall p, inv p ->
  (exists r, apply_terms (s_add S) (pairs terms) p = Ok (r, None)) <->
  Forall term_okd terms /\ forall n i, fits (radd (rd p i) (terms_sum R den (firstn n terms) i)).
Proof.
  induction 1 as [|k t ks ts E H IH]; intros p Hp.
  - split.
    + intros _. split; [constructor|]. intros n i. rewrite firstn_nil. cbn. unfold pzero.
      replace (radd (rd p i) r0) with (rd p i) by ring. apply Hfit, Hp.
    + intros _. exists p. reflexivity.
  - destruct t as [|c d]; cbn [pairs flat_map app]; fold (pairs ts).
    + rewrite (IH p Hp). split; intros [A B]; (split; [|intros n i]).
      * constructor; [exact I|exact A].
      * destruct n as [|n]; [apply (B 0%nat)|]. cbn [firstn terms_sum fold_right term_poly]. fold (terms_sum R den (firstn n ts)).
        unfold padd at 1. unfold pzero. replace (radd r0 (terms_sum R den (firstn n ts) i)) with (terms_sum R den (firstn n ts) i) by ring. apply B.
      * inversion A; assumption.
      * specialize (B (Datatypes.S n) i). cbn [firstn terms_sum fold_right term_poly] in B. fold (terms_sum R den (firstn n ts)) in B.
        unfold padd at 1, pzero in B. replace (radd r0 (terms_sum R den (firstn n ts) i)) with (terms_sum R den (firstn n ts) i) in B by ring. exact B.
    + cbn [apply_terms]. pose proof (term_degree_max O X k c d E) as Hd.
      assert (G : forall q, s_add S p c d = Ok (q, None) -> inv q /\ forall n i,
        radd (rd q i) (terms_sum R den (firstn n ts) i) = radd (rd p i) (terms_sum R den (firstn (Datatypes.S n) (TTerm c d :: ts)) i)).
      { intros q Hq. destruct (sk_add _ _ _ _ _ HS p c d q None Hp Hd Hq) as [Iq Cq]. split; [exact Iq|]. intros n i.
        cbn [firstn terms_sum fold_right term_poly]. fold (terms_sum R den (firstn n ts)). rewrite (Cq i). unfold padd. ring. }
      split.
      * intros (r & Hr). destruct (s_add S p c d) as [[q e]| |] eqn:Eq; cbn [bind snd fst] in Hr; try discriminate Hr.
        destruct e; [discriminate|]. destruct (G q eq_refl) as [Iq Cq].
        destruct (proj1 (IH q Iq) (ex_intro _ r Hr)) as [A B].
        destruct (proj1 (Hret p c d Hp Hd) (ex_intro _ q Eq)) as [Ho Hfi].
        split; [constructor; [exact Ho|exact A]|]. intros [|n] i; [|rewrite <- Cq; apply B].
        cbn. unfold pzero. replace (radd (rd p i) r0) with (rd p i) by ring. apply Hfit, Hp.
      * intros [A B]. inversion A as [|? ? Ho A']; subst. cbn in Ho.
        destruct (proj2 (Hret p c d Hp Hd)) as (q & Eq).
        { split; [exact Ho|]. specialize (B 1%nat (N.to_nat d)). cbn [firstn terms_sum fold_right term_poly] in B. unfold padd, pzero in B.
          rewrite pmono_at in B. replace (radd (den c) r0) with (den c) in B by ring. exact B. }
        rewrite Eq. cbn [bind snd fst]. destruct (G q Eq) as [Iq Cq]. apply (IH q Iq). split; [exact A'|]. intros n i. rewrite Cq. apply B.
Qed.

Lemma sink_ok : parse_ok (poly_from_str O X S z).
Proof.
  intros s. rewrite poly_from_str_spec.
  assert (G : forall toks terms, parsed O X toks terms ->
    (exists r, apply_terms (s_add S) (pairs terms) z = Ok (r, None)) <->
    Forall term_okd terms /\ forall n i, fits (terms_sum R den (firstn n terms) i)).
  { intros toks terms Hp. rewrite (apply_ok toks terms Hp z Hz). split; intros [A B]; (split; [exact A|]); intros n i; specialize (B n i);
      rewrite (Hz0 i) in *; unfold pzero in *;
      replace (radd r0 (terms_sum R den (firstn n terms) i)) with (terms_sum R den (firstn n terms) i) in * by ring; exact B. }
  destruct s as [|x s]; [split; [intros (p & H); discriminate H|intros [H _]; congruence]|].
  remember (x :: s) as s0 eqn:Es. assert (Hne : s0 <> []) by (subst; discriminate). clear Es x s. split.
  - intros (p & H). split; [exact Hne|]. destruct (parse_all_split (tokens s0)) as (t1 & rest & terms & Et & Hp & Hf & Hs).
    destruct (apply_terms (s_add S) (fst (parse_all O X (tokens s0))) z) as [[q e]| |] eqn:E; cbn [bind snd fst] in H; try discriminate H.
    destruct e; [discriminate|]. destruct (snd (parse_all O X (tokens s0))); [discriminate|]. subst rest.
    rewrite app_nil_r in Et. rewrite Hf in E. exists t1, terms. rewrite <- Et. split; [apply tokens_tokenization|].
    rewrite Et. split; [exact Hp|]. apply (G _ _ Hp). eauto.
  - intros (_ & toks & terms & Ht & Hp & Hok). apply tokenization_unique in Ht. subst toks.
    pose proof (parse_all_app _ _ [] Hp) as Ea. cbn [parse_all fst snd] in Ea. rewrite !app_nil_r in Ea. rewrite Ea. cbn [fst snd].
    destruct (proj2 (G _ _ Hp) Hok) as (r & ->). cbn [bind fst snd]. eauto.
Qed.
End Parsed.

(** ** C35 *)

Lemma dense_zero_ok {T} (O : num T) R den (L : lawful O R den) : vec_ok O dense_zero /\ peq (dcoef R den dense_zero) pzero.
Proof. pose proof (lw_cap _ _ _ L). split; [unfold vec_ok, dense_zero, len; cbn; lia|]. intros d. apply dcoef_nil. Qed.
Lemma mono_zero_ok {T} (O : num T) R den (L : lawful O R den) : peq (mpoly R den (mono_zero O)) pzero.
Proof. destruct (C02_fixed_is_zero T O R den L) as (_ & _ & _ & H1 & _ & H2 & H3 & _); assumption. Qed.
Lemma bino_zero_ok {T} (O : num T) R den (L : lawful O R den) : peq (bpoly R den (bino_zero O)) pzero.
Proof. destruct (C02_fixed_is_zero T O R den L) as (_ & _ & _ & H1 & _ & H2 & H3 & _); assumption. Qed.
Lemma trino_zero_ok {T} (O : num T) R den (L : lawful O R den) : peq (tpoly R den (trino_zero O)) pzero.
Proof. destruct (C02_fixed_is_zero T O R den L) as (_ & _ & _ & H1 & _ & H2 & H3 & _); assumption. Qed.

(** An accepted string denotes the sum of its terms. *)
Theorem C35_parsed_sum : forall T (O : num T) R den (X : txt T), lawful O R den ->
  parse_value O X R den (dcoef R den) (dense_from_str O X) /\
  parse_value O X R den (scoef R den) (sparse_from_str O X) /\
  parse_value O X R den (mpoly R den) (mono_from_str O X) /\
  parse_value O X R den (bpoly R den) (bino_from_str O X) /\
  parse_value O X R den (tpoly R den) (trino_from_str O X).
Proof.
  intros T O R den X L. destruct (dense_zero_ok O R den L) as [Hv H0]. split; [|split; [|split; [|split]]].
  - apply (sink_value O X R den (dense_mut O) (vec_ok O) _ _ (dense_sink O R den L) Hv H0).
  - apply (sink_value O X R den (sparse_mut O) swf _ _ (sparse_sink O R den L) swf_nil). intros d. reflexivity.
  - apply (sink_value O X R den (mono_mut O) (fun _ => True) _ _ (mono_sink O R den L) I (mono_zero_ok O R den L)).
  - apply (sink_value O X R den (bino_mut O) (fun _ => True) _ _ (bino_sink O R den L) I (bino_zero_ok O R den L)).
  - apply (sink_value O X R den (trino_mut O) (fun _ => True) _ _ (trino_sink O R den L) I (trino_zero_ok O R den L)).
Qed.

(** Each error identifies the first token that failed. *)
Theorem C35_errors : forall T (O : num T) R den (X : txt T), lawful O R den ->
  parse_errors O X R den (dense_mut O) (dcoef R den) (dense_from_str O X) /\
  parse_errors O X R den (sparse_mut O) (scoef R den) (sparse_from_str O X) /\
  parse_errors O X R den (mono_mut O) (mpoly R den) (mono_from_str O X) /\
  parse_errors O X R den (bino_mut O) (bpoly R den) (bino_from_str O X) /\
  parse_errors O X R den (trino_mut O) (tpoly R den) (trino_from_str O X).
Proof.
  intros T O R den X L. destruct (dense_zero_ok O R den L) as [Hv H0]. split; [|split; [|split; [|split]]].
  - apply (sink_errors O X R den (dense_mut O) (vec_ok O) _ _ (dense_sink O R den L) Hv H0).
  - apply (sink_errors O X R den (sparse_mut O) swf _ _ (sparse_sink O R den L) swf_nil). intros d. reflexivity.
  - apply (sink_errors O X R den (mono_mut O) (fun _ => True) _ _ (mono_sink O R den L) I (mono_zero_ok O R den L)).
  - apply (sink_errors O X R den (bino_mut O) (fun _ => True) _ _ (bino_sink O R den L) I (bino_zero_ok O R den L)).
  - apply (sink_errors O X R den (trino_mut O) (fun _ => True) _ _ (trino_sink O R den L) I (trino_zero_ok O R den L)).
Qed.

(** Exactly when parsing succeeds: every token is a term, its degree is one the type can
    store, and no intermediate sum overflows. *)
Theorem C35_succeeds : forall T (O : num T) R den fits (X : txt T), lawful O R den -> fits_ops O R den fits ->
  parse_ok O X R den (fun d => (d + 1 <= n_max_len O)%N) fits (dense_from_str O X) /\
  parse_ok O X R den (fun _ => True) fits (sparse_from_str O X) /\
  parse_ok O X R den (fun d => (d <= 1)%N) fits (bino_from_str O X) /\
  parse_ok O X R den (fun d => (d <= 2)%N) fits (trino_from_str O X).
Proof.
  intros T O R den fits X L F. destruct (dense_zero_ok O R den L) as [Hv H0]. split; [|split; [|split]].
  - apply (sink_ok O X R den (dense_mut O) (vec_ok O) (dcoef R den) _ (dense_sink O R den L) Hv H0).
    + intros p c d Hp Hd. cbn. destruct (N.eq_dec d USIZE_MAX) as [->|Hn].
      * split.
        -- intros (r & H). unfold dense_try_add_term in H. rewrite dense_add_term_upd in H.
           destruct (upd_term_max O R den L p (fun x => add O x c) Hp) as (k & Hk). rewrite Hk in H. discriminate H.
        -- intros [H _]. pose proof (lw_cap _ _ _ L) as Hc. unfold USIZE_MAX in H. lia.
      * rewrite <- (proj1 (C26_dense_returns T O R den fits L F p c d Hp ltac:(lia))). split; intros (r & H); [eauto|].
        unfold dense_try_add_term in *. inv_ok. exists v. rewrite E. reflexivity.
    + intros p i Hp. destruct (coef_rep O R den L p i) as (x & <-). apply (fo_den _ _ _ _ F).
  - apply (sink_ok O X R den (sparse_mut O) swf (scoef R den) _ (sparse_sink O R den L) swf_nil).
    + intros d. reflexivity.
    + intros p c d Hp Hd. cbn. rewrite <- (proj1 (C26_sparse_returns T O R den fits L F p c d Hp)). split; [intros (r & H); eauto|].
      intros (_ & r & H). unfold sparse_try_add_term in *. inv_ok. exists v. rewrite E. reflexivity.
    + intros p i Hp. destruct (scoef_rep O R den L p i Hp) as (x & <-). apply (fo_den _ _ _ _ F).
  - apply (sink_ok O X R den (bino_mut O) (fun _ => True) (bpoly R den) _ (bino_sink O R den L) I (bino_zero_ok O R den L)).
    + intros p c d _ _. cbn. destruct (C27_fixed_term_update_returns T O R den fits L F) as (_ & B & _).
      destruct (B p c d) as [B1 _]. destruct (C27_bino_term_update T O R den L p c d) as [U _]. split.
      * intros (r & H). destruct (U r None H) as [(Hd & _)|(_ & Hx & _)]; [|discriminate]. split; [exact Hd|]. apply B1; eauto.
      * intros (Hd & H). destruct (proj2 B1 (fun _ => H)) as ([r e] & Hr). destruct (U r e Hr) as [(_ & -> & _)|(Hx & _)]; [eauto|tauto].
    + intros p i _. destruct (coef_rep O R den L (bino_list p) i) as (x & E). unfold bpoly. rewrite <- E. apply (fo_den _ _ _ _ F).
  - apply (sink_ok O X R den (trino_mut O) (fun _ => True) (tpoly R den) _ (trino_sink O R den L) I (trino_zero_ok O R den L)).
    + intros p c d _ _. cbn. destruct (C27_fixed_term_update_returns T O R den fits L F) as (_ & _ & B & _).
      destruct (B p c d) as [B1 _]. destruct (C27_trino_term_update T O R den L p c d) as [U _]. split.
      * intros (r & H). destruct (U r None H) as [(Hd & _)|(_ & Hx & _)]; [|discriminate]. split; [exact Hd|]. apply B1; eauto.
      * intros (Hd & H). destruct (proj2 B1 (fun _ => H)) as ([r e] & Hr). destruct (U r e Hr) as [(_ & -> & _)|(Hx & _)]; [eauto|tauto].
    + intros p i _. destruct (coef_rep O R den L (trino_list p) i) as (x & E). unfold tpoly. rewrite <- E. apply (fo_den _ _ _ _ F).
Qed.

Lemma parsed_perm {T} (O : num T) (X : txt T) a b ta tb : Permutation a b -> parsed O X a ta -> parsed O X b tb -> Permutation ta tb.
Proof.
  intros Hp. revert ta tb. induction Hp as [|k a b Hp IH|k l a|a b c H1 IH1 H2 IH2]; intros ta tb Ha Hb.
  - inversion Ha; inversion Hb; subst. constructor.
  - inversion Ha as [|? x ? ta' A1 A2]; inversion Hb as [|? y ? tb' B1 B2]; subst. replace y with x by congruence. constructor. auto.
  - inversion Ha as [|? x ? ta' A1 A2]; subst. inversion A2 as [|? x' ? ta'' A3 A4]; subst.
    inversion Hb as [|? y ? tb' B1 B2]; subst. inversion B2 as [|? y' ? tb'' B3 B4]; subst.
    replace y with x' by congruence. replace y' with x by congruence.
    replace tb'' with ta''; [constructor|]. clear -A4 B4. revert tb'' B4. induction A4 as [|k t ks ts E H IH]; intros tb B; inversion B; subst; [reflexivity|].
    f_equal; [congruence|auto].
  - assert (Hmid : exists tm, parsed O X b tm).
    { clear -H1 Ha. revert ta Ha. induction H1 as [|k a b Hp IH|k l a|a b c H1 IH1 H2 IH2]; intros ta Ha.
      - exists []. constructor.
      - inversion Ha as [|? x ? ta' A1 A2]; subst. destruct (IH _ A2) as (tm & Hm). exists (x :: tm). constructor; assumption.
      - inversion Ha as [|? x ? ta' A1 A2]; subst. inversion A2 as [|? x' ? ta'' A3 A4]; subst. exists (x' :: x :: ta''). repeat constructor; assumption.
      - destruct (IH1 _ Ha) as (tm & Hm). apply (IH2 _ Hm). }
    destruct Hmid as (tm & Hm). eapply perm_trans; [apply IH1; eassumption|apply IH2; eassumption].
Qed.

(** Strings with the same tokens in another order denote the same polynomial. *)
Theorem C35_order_irrelevant : forall T (O : num T) R den (X : txt T), lawful O R den -> forall s1 s2 k1 k2,
  is_tokenization s1 k1 -> is_tokenization s2 k2 -> Permutation k1 k2 ->
  (forall p1 p2, dense_from_str O X s1 = Ok (inl p1) -> dense_from_str O X s2 = Ok (inl p2) -> dense_eq O p1 p2 = Ok true) /\
  (forall p1 p2, sparse_from_str O X s1 = Ok (inl p1) -> sparse_from_str O X s2 = Ok (inl p2) ->
     peq (scoef R den p1) (scoef R den p2)).
Proof.
  intros T O R den X L s1 s2 k1 k2 H1 H2 Hp. destruct (C35_parsed_sum T O R den X L) as (D & S & _).
  assert (G : forall ta tb, (exists k, is_tokenization s1 k /\ parsed O X k ta) -> (exists k, is_tokenization s2 k /\ parsed O X k tb) ->
    peq (terms_sum R den ta) (terms_sum R den tb)).
  { intros ta tb (ka & Ka & Pa) (kb & Kb & Pb). apply terms_sum_perm. eapply parsed_perm; [|exact Pa|exact Pb].
    rewrite (C34_tokens_unique s1 ka k1 Ka H1), (C34_tokens_unique s2 kb k2 Kb H2). exact Hp. }
  split; intros p1 p2 E1 E2.
  - destruct (D s1 p1 E1) as (_ & ka & ta & Ka & Pa & Ca), (D s2 p2 E2) as (_ & kb & tb & Kb & Pb & Cb).
    destruct (C05_dense_eq T O R den L p1 p2) as (r & Er & Hr). rewrite Er. f_equal. apply Hr. intros i. rewrite (Ca i), (Cb i). apply G; eauto.
  - destruct (S s1 p1 E1) as (_ & ka & ta & Ka & Pa & Ca), (S s2 p2 E2) as (_ & kb & tb & Kb & Pb & Cb).
    intros i. rewrite (Ca i), (Cb i). apply G; eauto.
Qed.

(** Monomials are different: the order of the terms decides (1 - 1 + x against 1 + x - 1). *)
Example C35_mono_order :
  rmap (fun r => match r with inl m => Some (ival (mcoef m), mdeg m) | inr _ => None end)
    (mono_from_str (int_num true I32) (int_txt I32) (lit "1 - 1 + x")) = Ok (Some (1%Z, 1%N)) /\
  mono_from_str (int_num true I32) (int_txt I32) (lit "1 + x - 1") = Ok (inr (AddingTerm TooManyTerms)).
Proof. split; vm_compute; reflexivity. Qed.

Example C35_case :
  rmap (fun r => match r with inl l => Some (map ival l) | inr _ => None end)
    (dense_from_str (int_num true I32) (int_txt I32) (lit "-x^2 + 3 + 5x^2 - x")) = Ok (Some [4; -1; 3]%Z) /\
  dense_from_str (int_num true I32) (int_txt I32) (lit "1 + y + z^") = Ok (inr (TermFromString (UnexpectedChar (ch "y")))) /\
  bino_from_str (int_num true I32) (int_txt I32) (lit "x^2") = Ok (inr (AddingTerm DegreeOutOfBounds)).
Proof. split; [|split]; vm_compute; reflexivity. Qed.

(** ** C38 *)

Lemma no_panic {T P} (O : num T) (X : txt T) (S : mutpoly T P) (inv : P -> Prop) z :
  inv z -> (forall p c d, inv p -> (d <= USIZE_MAX)%N -> exists q e, s_add S p c d = Ok (q, e) /\ inv q) ->
  forall s, exists r, poly_from_str O X S z s = Ok r.
Proof.
  intros Hz Ha s. rewrite poly_from_str_spec. destruct s as [|x s]; [eauto|].
  destruct (parse_all_split O X (tokens (x :: s))) as (t1 & rest & terms & _ & Hp & Hf & _). rewrite Hf. apply pairs_fine in Hp.
  assert (G : exists r, apply_terms (s_add S) (pairs terms) z = Ok r).
  { revert Hp z Hz. generalize (pairs terms) as ts. induction ts as [|[c d] ts IH]; intros Hp z Hz; cbn [apply_terms]; [eauto|].
    inversion Hp as [|? ? Hd Hp']; subst. destruct (Ha z c d Hz Hd) as (q & e & -> & Hq). cbn [bind snd fst]. destruct e; [eauto|]. apply IH; assumption. }
  destruct G as ([r e] & ->). cbn [bind snd fst]. destruct e; [eauto|]. destruct (snd _); eauto.
Qed.

(** Without coefficient overflow (wrapping integers, fractions) every string gives Ok or Err
    for the types that do not allocate by degree. *)
Theorem C38_no_panic_partial : forall T (O : num T) R den (X : txt T), lawful O R den -> total_ops O -> forall s,
  (exists r, sparse_from_str O X s = Ok r) /\ (exists r, mono_from_str O X s = Ok r) /\
  (exists r, bino_from_str O X s = Ok r) /\ (exists r, trino_from_str O X s = Ok r).
Proof.
  intros T O R den X L Ht s. pose proof (total_fits O R den Ht) as F.
  destruct (C27_fixed_term_update_returns T O R den _ L F) as (Bm & Bb & Bt & _). split; [|split; [|split]].
  - apply (no_panic O X (sparse_mut O) swf); [exact swf_nil|]. intros p c d Hp Hd.
    destruct (proj2 (proj1 (C26_sparse_returns T O R den _ L F p c d Hp)) I) as ([q e] & Hq). exists q, e. split; [exact Hq|].
    apply (sk_add _ _ _ _ _ (sparse_sink O R den L) p c d q e Hp Hd Hq).
  - apply (no_panic O X (mono_mut O) (fun _ => True) _ I). intros p c d _ _.
    destruct (proj2 (proj1 (Bm p c d)) (fun _ => I)) as ([q e] & Hq). exists q, e. auto.
  - apply (no_panic O X (bino_mut O) (fun _ => True) _ I). intros p c d _ _.
    destruct (proj2 (proj1 (Bb p c d)) (fun _ => I)) as ([q e] & Hq). exists q, e. auto.
  - apply (no_panic O X (trino_mut O) (fun _ => True) _ I). intros p c d _ _.
    destruct (proj2 (proj1 (Bt p c d)) (fun _ => I)) as ([q e] & Hq). exists q, e. auto.
Qed.

(** Overflow-checked types: no panic either unless a partial sum overflows. *)
Theorem C38_no_panic_checked_partial : forall T (O : num T) R den fits (X : txt T), lawful O R den -> fits_ops O R den fits -> forall s,
  (forall k1 k2 terms, is_tokenization s (k1 ++ k2) -> parsed O X k1 terms -> forall i, fits (terms_sum R den terms i)) ->
  exists r, sparse_from_str O X s = Ok r.
Proof.
  intros T O R den fits X L F s H. unfold sparse_from_str. rewrite poly_from_str_spec. destruct s as [|x s]; [eauto|].
  remember (x :: s) as s0 eqn:Es. clear Es x s.
  destruct (parse_all_split O X (tokens s0)) as (t1 & rest & terms & Et & Hp & Hf & _). rewrite Hf.
  pose proof (tokens_tokenization s0) as Ht. rewrite Et in Ht.
  assert (G : exists r, apply_terms (s_add (sparse_mut O)) (pairs terms) [] = Ok (r, None)).
  { apply (apply_ok O X R den (sparse_mut O) swf (scoef R den) (sparse_sink O R den L) (fun _ => True) fits) with (toks := t1).
    - intros p c d Hpw Hd. cbn. rewrite <- (proj1 (C26_sparse_returns T O R den fits L F p c d Hpw)). split; [intros (r & Hr); eauto|].
      intros (_ & r & Hr). unfold sparse_try_add_term in *. inv_ok. exists v. rewrite E. reflexivity.
    - intros p i Hpw. destruct (scoef_rep O R den L p i Hpw) as (y & <-). apply (fo_den _ _ _ _ F).
    - exact Hp.
    - exact swf_nil.
    - split; [apply Forall_forall; intros [|c d] _; exact I|]. intros n i.
      change (scoef R den [] i) with (@r0 R). replace (radd r0 (terms_sum R den (firstn n terms) i)) with (terms_sum R den (firstn n terms) i)
        by (symmetry; apply (Radd_0_l (r_theory R))).
      assert (Hfn : parsed O X (firstn n t1) (firstn n terms)).
      { clear -Hp. revert n. induction Hp as [|k t ks ts E Hk IH]; intros [|n]; cbn; constructor; auto. apply IH. }
      apply (H (firstn n t1) (skipn n t1 ++ rest) _); [rewrite app_assoc, firstn_skipn; exact Ht|exact Hfn]. }
  destruct G as (r & ->). cbn [bind snd fst]. destruct (snd _); eauto.
Qed.

Lemma dense_add_panics {T} (O : num T) R den (L : lawful O R den) c d : (n_max_len O <= d <= USIZE_MAX)%N ->
  exists k, dense_add_term O dense_zero c d = Panic k.
Proof.
  intros Hd. destruct (dense_zero_ok O R den L) as [Hv _]. rewrite dense_add_term_upd. destruct (N.eq_dec d USIZE_MAX) as [->|Hn].
  - apply (upd_term_max O R den L), Hv.
  - rewrite upd_term_unfold by (try assumption; lia). destruct (N.leb_spec (N.max (len (@dense_zero T)) (d + 1)) (n_max_len O)); [lia|]. eauto.
Qed.

(** The dense type panics on a short string for every degree it cannot allocate. *)
Theorem C38_dense_refuted : forall T (O : num T) R den (X : txt T), lawful O R den -> is_zero O (one O) = false ->
  forall d, (n_max_len O <= d <= USIZE_MAX)%N -> exists k, dense_from_str O X (lit "x^" ++ show_N d) = Panic k.
Proof.
  intros T O R den X L H1 d Hd. destruct (show_N_spec d) as (A & B & C).
  assert (Hn : numeric (show_N d)) by (unfold numeric; chars; rewrite forallb_forall in *; intros c Hc; apply (digit_not_sign c), B, Hc).
  assert (Hk : term_from_str O X (lit "x^" ++ show_N d) = inl (TTerm (one O) d)).
  { rewrite <- (term_new_nz O _ _ H1). apply term_text_sound. apply (tt_pow O X [] (one O) [] (show_N d)); [constructor|reflexivity|exact Hn|exact A|].
    apply parse_usize_show, Hd. }
  assert (Ht : tokens (lit "x^" ++ show_N d) = [lit "x^" ++ show_N d]).
  { symmetry. apply tokenization_unique. split; [cbn [concat]; apply app_nil_r|]. split; [|constructor].
    exists [], (ch "x"), (ch "^" :: show_N d). left. split; [reflexivity|]. split; [reflexivity|]. split; [reflexivity|].
    unfold has_no_sign. chars. cbn [forallb]. change (is_sign (ch "^")) with false. cbn [negb andb].
    rewrite forallb_forall in *. intros c Hc. destruct (digit_not_sign c (B c Hc)) as (S1 & _). rewrite S1. reflexivity. }
  unfold dense_from_str. rewrite poly_from_str_spec. rewrite Ht. cbn [parse_all]. rewrite Hk. cbn [fst snd apply_terms].
  destruct (dense_add_panics O R den L (one O) d Hd) as (k & Ek). exists k. change (lit "x^" ++ show_N d) with (ch "x" :: ch "^" :: show_N d).
  cbn [s_add dense_mut]. unfold dense_try_add_term. rewrite Ek. reflexivity.
Qed.

(** usize::MAX for i32, in both build modes. *)
Example C38_case : forall chk, exists k, dense_from_str (int_num chk I32) (int_txt I32) (lit "x^18446744073709551615") = Panic k.
Proof. intros []; eexists; vm_compute; reflexivity. Qed.
