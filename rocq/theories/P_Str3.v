(** Properties C32, C33 and C53: printing. *)

From Coq Require Import String Ascii List NArith ZArith Lia Bool Ring Arith Sorted.
From Coq Require Import ZifyBool ZifyNat ZifyN.
From Verif Require Import Base Num Spec SpecFacts Laws Terms Dense Sparse Mono Bino Trino.
From Verif Require Import DenseFacts DenseMut DenseDiv Wrap SparseFacts SparseCalc FixedFacts P_Dense1 P_Sparse1 P_Fixed1.
From Verif Require Import PolyMath MutFacts P_Mut Strs StrFacts StrShow P_Str P_Str2.
Import ListNotations.

(** If the coefficient of x^d is the minimum of a signed type, x^d is the leading term. *)
Definition min_leads (t : ity) (p : nat -> Z) : Prop :=
  signed t = true -> forall d e, p d = imin t -> (d < e)%nat -> p e = 0%Z.

(** ** Both build modes at once *)

(** A reading of the integers of type [t] under which the operations are lawful, together
    with the value of each reading. *)
Lemma int_mode chk t : exists R (den : int t -> car R) fits (val : car R -> Z),
  lawful (int_num chk t) R den /\ fits_ops (int_num chk t) R den fits /\ val r0 = 0%Z /\ forall c, val (den c) = ival c.
Proof.
  destruct chk.
  - exists Z_ring, ival, (fun z => in_range t z = true), (fun z => z). split; [apply checked_lawful|]. split; [apply checked_fits|]. split; reflexivity.
  - exists (w_ring t), (fun a => a), (fun _ => True), ival. split; [apply wrapping_lawful|]. split; [apply total_fits, wrapping_total|].
    split; [|reflexivity]. apply ival_mk_int, in_range_iff. pose proof (imin_max t). lia.
Qed.

Section Mode.
Context (chk : bool) (t : ity) (R : comring) (den : int t -> car R) (fits : car R -> Prop) (val : car R -> Z).
Context (L : lawful (int_num chk t) R den) (F : fits_ops (int_num chk t) R den fits).
Context (V0 : val r0 = 0%Z) (V : forall c, val (den c) = ival c).
Notation O := (int_num chk t).
Notation X := (int_txt t).
Add Ring Rring_ps3 : (r_theory R).

Lemma dcoef_val l d : val (dcoef R den l d) = dcoef Z_ring ival l d.
Proof.
  induction l as [|c l IH]; [rewrite !dcoef_nil; exact V0|]. rewrite !dcoef_cons. destruct (Nat.eqb d (length l)); [apply V|exact IH].
Qed.
Lemma scoef_val m d : swf m -> val (scoef R den m d) = scoef Z_ring ival m d.
Proof. intros Hm. rewrite !scoef_get by apply Hm. destruct (m_get (N.of_nat d) m); [apply V|exact V0]. Qed.
Lemma mpoly_val m d : val (mpoly R den m d) = mpoly Z_ring ival m d.
Proof. unfold mpoly, pmono. destruct (Nat.eqb d _); [apply V|exact V0]. Qed.

Lemma den_zero_val c : ival c = 0%Z -> den c = r0.
Proof.
  intros H. rewrite <- (lw_zero _ _ _ L). f_equal. cbn. apply int_eq. rewrite H. symmetry. apply ival_mk_int, in_range_iff. pose proof (imin_max t). lia.
Qed.

Lemma listing_tail (p : poly R) ts : is_listing p (dterms R den ts) -> min_leads t (fun d => val (p d)) -> tail_ok O X ts.
Proof.
  intros Hl Hm. pose proof (listing_lists O R den L p ts Hl) as [Hs Hin]. unfold tail_ok. destruct ts as [|[c0 d0] ts]; [constructor|].
  cbn [tl]. inversion Hs as [|? ? _ Hlt]; subst. rewrite Forall_forall in *. intros [c d] Hc. cbn [fst].
  destruct (proj1 (Hin c d) (or_intror Hc)) as [Hn Hp]. destruct (proj1 (Hin c0 d0) (or_introl eq_refl)) as [Hn0 Hp0].
  apply int_trail_ok; [intros H; apply Hn, den_zero_val, H|]. intros Hsg E.
  apply Hn0, den_zero_val. specialize (Hm Hsg (N.to_nat d) (N.to_nat d0)). cbv beta in Hm. rewrite Hp, Hp0, !V in Hm.
  apply Hm; [exact E|]. specialize (Hlt _ Hc). cbn in Hlt. lia.
Qed.

Lemma listing_ok (p : poly R) ts (okd : N -> Prop) : (forall d, okd d -> (d <= USIZE_MAX)%N) ->
  is_listing p (dterms R den ts) -> Forall (fun t => okd (snd t)) ts -> Forall (term_ok O) ts.
Proof.
  intros Hm Hl Ho. pose proof (listing_lists O R den L p ts Hl) as [_ Hin]. rewrite Forall_forall in *. intros [c d] Hc.
  split; [|apply Hm, (Ho _ Hc)]. cbn [fst]. destruct (is_zero O c) eqn:E; [|reflexivity].
  apply (is_zero_den O R den L) in E. destruct (proj1 (Hin c d) Hc). contradiction.
Qed.

Lemma parse_zero : parse_all O X (tokens (lit "0")) = ([], None).
Proof.
  change (tokens (lit "0")) with [lit "0"]. cbn [parse_all].
  assert (E : term_from_str O X (lit "0") = inl ZeroTerm).
  { assert (Hp : parse X (lit "0") = Some (mk_int t 0)).
    { destruct (C36_integer_text t (lit "0")) as [E _]; [split; [discriminate|reflexivity]|]. rewrite E. change (dval 0 (lit "0")) with 0%Z.
      destruct (in_range t 0) eqn:Er; [reflexivity|]. unfold in_range in Er. pose proof (imin_max t). lia. }
    pose proof (term_text_sound O X (lit "0") _ (tt_const O X (lit "0") _ eq_refl Hp)) as E. rewrite E.
    unfold term_new. cbn [is_zero int_num]. rewrite ival_mk_int by (apply in_range_iff; pose proof (imin_max t); lia). reflexivity. }
  rewrite E. reflexivity.
Qed.

(** Show and parse back, for any type with term-wise updates. *)
Context {P : Type} (S : mutpoly (int t) P) (inv : P -> Prop) (rd : P -> poly R) (z : P).
Context (HS : sink_laws R den S inv rd) (Hz : inv z) (Hz0 : peq (rd z) pzero).
Context (okd : N -> Prop) (okd_max : forall d, okd d -> (d <= USIZE_MAX)%N).
Context (Hadd : forall p c d, inv p -> okd d -> rd p (N.to_nat d) = r0 -> exists r, s_add S p c d = Ok (r, None)).

Lemma round_trip (p : poly R) ts : is_listing p (dterms R den ts) -> Forall (fun t => okd (snd t)) ts ->
  min_leads t (fun d => val (p d)) ->
  exists s r, show_terms O X ts = Ok s /\ poly_from_str O X S z s = Ok (inl r) /\ inv r /\ peq (rd r) p.
Proof.
  intros Hl Ho Hm. pose proof Hl as (Hs & _ & Hc). apply (StrShow.sorted_dterms R den) in Hs.
  assert (G : exists s, show_terms O X ts = Ok s /\ s <> [] /\ parse_all O X (tokens s) = (ts, None)).
  { destruct ts as [|u us] eqn:Ets.
    - exists (lit "0"). split; [reflexivity|]. split; [discriminate|]. exact parse_zero.
    - rewrite <- Ets in *. apply (show_terms_parse O X); [rewrite Ets; discriminate| |rewrite Ets; apply int_lead_ok|].
      + eapply listing_ok; eassumption.
      + eapply listing_tail; eassumption. }
  destruct G as (s & E1 & E2 & E3).
  destruct (apply_distinct R den inv rd S HS okd okd_max Hadd ts z Hz Hs Ho) as (r & Er & Ir & Cr).
  { intros u _. rewrite (Hz0 (N.to_nat (snd u))). reflexivity. }
  exists s, r. split; [exact E1|]. split.
  - rewrite poly_from_str_spec, E3. cbn [fst snd]. destruct s; [congruence|]. rewrite Er. reflexivity.
  - split; [exact Ir|]. intros i. rewrite (Cr i). unfold padd. rewrite (Hz0 i), (Hc i). unfold pzero. ring.
Qed.
End Mode.

(** ** C32 *)

Theorem C32_dense_round_trip : forall chk t l, vec_ok (int_num chk t) l -> min_leads t (dcoef Z_ring ival l) ->
  exists s r, dense_show (int_num chk t) (int_txt t) l = Ok s /\ dense_from_str (int_num chk t) (int_txt t) s = Ok (inl r) /\
    dense_eq (int_num chk t) r l = Ok true /\ forall d, dcoef Z_ring ival r d = dcoef Z_ring ival l d.
Proof.
  intros chk t l Hv Hm. destruct (int_mode chk t) as (R & den & fits & val & L & F & V0 & V).
  destruct (dense_terms_spec (int_num chk t) R den L l) as (ts & E & Hl & Hd).
  destruct (dense_zero_ok (int_num chk t) R den L) as [Hv0 H0]. pose proof (lw_cap _ _ _ L) as Hcap.
  destruct (round_trip chk t R den val L V (dense_mut (int_num chk t)) (vec_ok (int_num chk t)) (dcoef R den) dense_zero
    (dense_sink _ R den L) Hv0 H0 (fun d => (d + 1 <= n_max_len (int_num chk t))%N)) with (p := dcoef R den l) (ts := ts) as (s & r & A & B & C & D).
  - intros d H. unfold USIZE_MAX. lia.
  - intros p c d Hp Ho Hz. cbn. assert (Hdm : (d < USIZE_MAX)%N) by (unfold USIZE_MAX; lia).
    destruct (proj2 (proj1 (C26_dense_returns _ _ R den fits L F p c d Hp Hdm))) as (q & Hq).
    { split; [exact Ho|]. rewrite Hz. replace (radd r0 (den c)) with (den c) by (symmetry; apply (Radd_0_l (r_theory R))). apply (fo_den _ _ _ _ F). }
    unfold dense_try_add_term in *. inv_ok. exists v. rewrite E0. reflexivity.
  - exact Hl.
  - rewrite Forall_forall in *. intros u Hu. specialize (Hd u Hu). unfold vec_ok in Hv. lia.
  - intros Hs d e He Hde. rewrite (dcoef_val t R den val V0 V) in *. apply (Hm Hs d e He Hde).
  - exists s, r. split; [unfold dense_show; rewrite E; exact A|]. split; [exact B|]. split.
    + destruct (C05_dense_eq _ _ R den L r l) as (b & Eb & Hb). rewrite Eb. f_equal. apply Hb, D.
    + intros d. rewrite <- !(dcoef_val t R den val V0 V). f_equal. apply D.
Qed.

Theorem C32_sparse_round_trip : forall chk t m, swf m -> min_leads t (scoef Z_ring ival m) ->
  exists s r, sparse_show (int_num chk t) (int_txt t) m = Ok s /\ sparse_from_str (int_num chk t) (int_txt t) s = Ok (inl r) /\
    sparse_eq (int_num chk t) r m = true /\ forall d, scoef Z_ring ival r d = scoef Z_ring ival m d.
Proof.
  intros chk t m Hv Hm. destruct (int_mode chk t) as (R & den & fits & val & L & F & V0 & V).
  pose proof (sparse_terms_spec (int_num chk t) R den L m (proj1 Hv)) as Hl.
  destruct (round_trip chk t R den val L V (sparse_mut (int_num chk t)) swf (scoef R den) []
    (sparse_sink _ R den L) swf_nil (fun _ => eq_refl) (fun d => (d <= USIZE_MAX)%N)) with (p := scoef R den m) (ts := sparse_terms (int_num chk t) m)
    as (s & r & A & B & C & D).
  - auto.
  - intros p c d Hp Ho Hz. cbn.
    destruct (proj2 (proj1 (C26_sparse_returns _ _ R den fits L F p c d Hp))) as (q & Hq).
    { rewrite Hz. replace (radd r0 (den c)) with (den c) by (symmetry; apply (Radd_0_l (r_theory R))). apply (fo_den _ _ _ _ F). }
    unfold sparse_try_add_term in *. inv_ok. exists v. rewrite E. reflexivity.
  - exact Hl.
  - rewrite Forall_forall. intros [c d] Hu. cbn [snd]. destruct Hv as [_ Hv]. unfold sparse_terms in Hu.
    apply in_map_iff in Hu. destruct Hu as ([k v] & E & Hu). injection E as <- <-. apply filter_In in Hu. destruct Hu as [Hu _].
    apply in_rev in Hu. rewrite Forall_forall in Hv. apply (Hv (k, v) Hu).
  - intros Hs d e He Hde. rewrite (scoef_val t R den val V0 V) in * by exact Hv. apply (Hm Hs d e He Hde).
  - exists s, r. split; [exact A|]. split; [exact B|]. split.
    + apply (C05_sparse_eq _ _ R den L r m C Hv), D.
    + intros d. rewrite <- !(scoef_val t R den val V0 V) by assumption. f_equal. apply D.
Qed.

Theorem C32_linear_quadratic_round_trip : forall chk t,
  (forall b, min_leads t (bpoly Z_ring ival b) ->
     exists s r, bino_show (int_num chk t) (int_txt t) b = Ok s /\ bino_from_str (int_num chk t) (int_txt t) s = Ok (inl r) /\
       bino_eq (int_num chk t) r b = true /\ forall d, bpoly Z_ring ival r d = bpoly Z_ring ival b d) /\
  (forall b, min_leads t (tpoly Z_ring ival b) ->
     exists s r, trino_show (int_num chk t) (int_txt t) b = Ok s /\ trino_from_str (int_num chk t) (int_txt t) s = Ok (inl r) /\
       trino_eq (int_num chk t) r b = true /\ forall d, tpoly Z_ring ival r d = tpoly Z_ring ival b d).
Proof.
  intros chk t. destruct (int_mode chk t) as (R & den & fits & val & L & F & V0 & V).
  destruct (C27_fixed_term_update_returns _ _ R den fits L F) as (_ & B1 & B2 & _).
  destruct (C05_fixed_eq _ _ R den L) as (_ & Q1 & Q2 & _). split; intros b Hm.
  - destruct (enum_terms_listing (int_num chk t) R den L 1 (bino_list b) 0 (or_intror eq_refl)) as (ts & E & Hl & Hd).
    destruct (round_trip chk t R den val L V (bino_mut (int_num chk t)) (fun _ => True) (bpoly R den) (bino_zero (int_num chk t))
      (bino_sink _ R den L) I (bino_zero_ok _ R den L) (fun d => (d <= 1)%N)) with (p := bpoly R den b) (ts := ts) as (s & r & A & B & C & D).
    + intros d H. unfold USIZE_MAX. lia.
    + intros p c d _ Ho Hz. cbn. destruct (proj2 (proj1 (B1 p c d))) as ([q e] & Hq).
      { intros _. rewrite Hz. replace (radd r0 (den c)) with (den c) by (symmetry; apply (Radd_0_l (r_theory R))). apply (fo_den _ _ _ _ F). }
      destruct (proj1 (C27_bino_term_update _ _ R den L p c d) q e Hq) as [(_ & -> & _)|(Hx & _)]; [eauto|tauto].
    + exact Hl.
    + rewrite Forall_forall in *. intros u Hu. specialize (Hd u Hu). cbn in Hd. lia.
    + intros Hs d e He Hde. unfold bpoly in *. rewrite (dcoef_val t R den val V0 V) in *. apply (Hm Hs d e He Hde).
    + exists s, r. split; [unfold bino_show; unfold bino_terms; rewrite E; exact A|]. split; [exact B|]. split.
      * apply Q1, D.
      * intros d. unfold bpoly in *. rewrite <- !(dcoef_val t R den val V0 V). f_equal. apply D.
  - destruct (enum_terms_listing (int_num chk t) R den L 2 (trino_list b) 0 (or_intror eq_refl)) as (ts & E & Hl & Hd).
    destruct (round_trip chk t R den val L V (trino_mut (int_num chk t)) (fun _ => True) (tpoly R den) (trino_zero (int_num chk t))
      (trino_sink _ R den L) I (trino_zero_ok _ R den L) (fun d => (d <= 2)%N)) with (p := tpoly R den b) (ts := ts) as (s & r & A & B & C & D).
    + intros d H. unfold USIZE_MAX. lia.
    + intros p c d _ Ho Hz. cbn. destruct (proj2 (proj1 (B2 p c d))) as ([q e] & Hq).
      { intros _. rewrite Hz. replace (radd r0 (den c)) with (den c) by (symmetry; apply (Radd_0_l (r_theory R))). apply (fo_den _ _ _ _ F). }
      destruct (proj1 (C27_trino_term_update _ _ R den L p c d) q e Hq) as [(_ & -> & _)|(Hx & _)]; [eauto|tauto].
    + exact Hl.
    + rewrite Forall_forall in *. intros u Hu. specialize (Hd u Hu). cbn in Hd. lia.
    + intros Hs d e He Hde. unfold tpoly in *. rewrite (dcoef_val t R den val V0 V) in *. apply (Hm Hs d e He Hde).
    + exists s, r. split; [unfold trino_show; unfold trino_terms; rewrite E; exact A|]. split; [exact B|]. split.
      * apply Q2, D.
      * intros d. unfold tpoly in *. rewrite <- !(dcoef_val t R den val V0 V). f_equal. apply D.
Qed.

(** A monomial has only a leading term. *)
Theorem C32_mono_round_trip : forall chk t m, (mdeg m <= USIZE_MAX)%N ->
  exists r, mono_from_str (int_num chk t) (int_txt t) (mono_show (int_num chk t) (int_txt t) m) = Ok (inl r) /\
    mono_eq (int_num chk t) r m = true /\ forall d, mpoly Z_ring ival r d = mpoly Z_ring ival m d.
Proof.
  intros chk t m Hd. destruct (int_mode chk t) as (R & den & fits & val & L & F & V0 & V).
  assert (G : exists r, mono_from_str (int_num chk t) (int_txt t) (mono_show (int_num chk t) (int_txt t) m) = Ok (inl r) /\ peq (mpoly R den r) (mpoly R den m)).
  { unfold mono_show, mono_as_term. unfold mono_from_str. destruct (is_zero (int_num chk t) (mcoef m)) eqn:Ez.
    - exists (mono_zero (int_num chk t)). split.
      + unfold term_new. rewrite Ez. rewrite poly_from_str_spec, parse_zero. reflexivity.
      + intros i. rewrite (mono_zero_ok _ R den L i). symmetry. apply pmono_zero. apply (is_zero_den _ R den L), Ez.
    - pose proof (show_terms_parse (int_num chk t) (int_txt t) [(mcoef m, mdeg m)]) as H.
      destruct H as (s & E1 & E2 & E3); [discriminate|constructor; [split; [exact Ez|exact Hd]|constructor]|apply int_lead_ok|constructor|].
      cbn [show_terms foldM] in E1. injection E1 as E1. unfold term_new. rewrite Ez. rewrite E1.
      rewrite poly_from_str_spec, E3. cbn [fst snd apply_terms s_add mono_mut].
      assert (Hz : mono_is_zero (int_num chk t) (mono_zero (int_num chk t)) = true) by (apply (mono_is_zero_poly _ R den L), (mono_zero_ok _ R den L)).
      unfold mono_try_add_term. rewrite Hz. cbn [mono_zero mcoef].
      destruct (proj2 (fo_add _ _ _ _ F (zero (int_num chk t)) (mcoef m))) as (c' & Hc).
      { rewrite (lw_zero _ _ _ L). replace (radd r0 (den (mcoef m))) with (den (mcoef m)) by (symmetry; apply (Radd_0_l (r_theory R))). apply (fo_den _ _ _ _ F). }
      rewrite Hc. destruct s; [congruence|]. cbn [bind snd fst]. eexists. split; [reflexivity|].
      apply (lw_add _ _ _ L) in Hc. rewrite (lw_zero _ _ _ L) in Hc. intros i. unfold mpoly. cbn [mcoef mdeg]. rewrite Hc.
      replace (radd r0 (den (mcoef m))) with (den (mcoef m)) by (symmetry; apply (Radd_0_l (r_theory R))). reflexivity. }
  destruct G as (r & A & B). exists r. split; [exact A|]. split; [apply (C05_fixed_eq _ _ R den L), B|].
  intros d. rewrite <- !(mpoly_val t R den val V0 V). f_equal. apply B.
Qed.

(** The text, with a zero coefficient, a coefficient -1, and the minimum in front. *)
Example C32_case :
  dense_show (int_num true I8) (int_txt I8) (map (mk_int I8) [-128; 0; -1; 0; 7; 1]%Z)
  = Ok (lit "-128x^5 - x^3 + 7x + 1") /\ min_leads I8 (dcoef Z_ring ival (map (mk_int I8) [-128; 0; -1; 0; 7; 1]%Z)).
Proof.
  split; [vm_compute; reflexivity|]. intros _ d e. do 6 (destruct d as [|d]; [vm_compute; intros; try discriminate|]); [|intros H; vm_compute in H; destruct d; discriminate H].
  do 6 (destruct e as [|e]; [lia|]). destruct e; vm_compute; reflexivity.
Qed.

(** ** C33 *)

(** The minimum in a non-leading position. *)
Definition min_trails (t : ity) (p : nat -> Z) : Prop :=
  signed t = true /\ exists d e, p d = imin t /\ (d < e)%nat /\ p e <> 0%Z.

(** The two hypotheses are complementary, for signed types. *)
Lemma min_trails_not_leads t p : min_trails t p -> ~ min_leads t p.
Proof. intros (Hs & d & e & H1 & H2 & H3) H. apply H3, (H Hs d e H1 H2). Qed.

Section MinShow.
Context (t : ity).
Notation X := (int_txt t).

Lemma min_abs chk (c : int t) : signed t = true -> ival c = imin t ->
  absv (int_num chk t) c = (if chk then Panic POverflow else Ok c) /\ is_pos (int_num chk t) c = false /\ (ival c < 0)%Z.
Proof.
  intros Hs Hc. assert (Hn : (imin t < 0)%Z) by (destruct t; try discriminate Hs; vm_compute; reflexivity).
  assert (Hr : in_range t (Z.abs (imin t)) = false) by (destruct t; try discriminate Hs; vm_compute; reflexivity).
  assert (Hw : mk_int t (Z.abs (imin t)) = c).
  { apply int_eq. rewrite Hc. unfold mk_int. cbn [ival]. destruct t; try discriminate Hs; vm_compute; reflexivity. }
  split; [|split; [cbn [is_pos int_num]; lia|lia]]. cbn [absv int_num]. rewrite Hs, Hc. unfold arith. rewrite Hr. destruct chk; [reflexivity|]. rewrite Hw. reflexivity.
Qed.

Lemma trailing_checked c d : (exists s, trailing_term (int_num true t) X c d = Ok s) \/ trailing_term (int_num true t) X c d = Panic POverflow.
Proof.
  unfold trailing_term. assert (H : (exists a, absv (int_num true t) c = Ok a) \/ absv (int_num true t) c = Panic POverflow).
  { cbn [absv int_num]. destruct (signed t); [|eauto]. unfold arith. destruct (in_range t _); eauto. }
  destruct H as [(a & ->)| ->]; cbn [bind]; [|auto]. destruct (d =? 0)%N; eauto.
Qed.
Lemma show_checked ts : Exists (fun u => ival (fst u) = imin t) ts -> signed t = true -> forall acc,
  foldM (fun acc u => s <- trailing_term (int_num true t) X (fst u) (snd u) ;; Ok (acc ++ s)) acc ts = Panic POverflow.
Proof.
  intros H Hs. induction ts as [|[c d] ts IH]; intros acc; [inversion H|]. cbn [foldM fst snd].
  destruct (trailing_checked c d) as [(s & E)|E]; rewrite E; cbn [bind]; [|reflexivity].
  inversion H as [? ? Hc|? ? Ht]; subst; [|apply IH, Ht]. cbn [fst] in Hc. exfalso.
  unfold trailing_term in E. rewrite (proj1 (min_abs true c Hs Hc)) in E. cbn [bind] in E. discriminate E.
Qed.

(** Without overflow checks: the text goes on with "- -". *)
Notation W := (int_num false t).
Lemma trailing_min c d : signed t = true -> ival c = imin t ->
  exists u, trailing_term W X c d = Ok (ch " " :: ch "-" :: ch " " :: ch "-" :: u).
Proof.
  intros Hs Hc. destruct (min_abs false c Hs Hc) as (Ha & Hp & Hn). unfold trailing_term. rewrite Ha, Hp. cbn [bind].
  assert (Hsh : exists v, show X c = ch "-" :: v).
  { cbn [show int_txt]. unfold show_Z. destruct (Z.ltb_spec (ival c) 0); [eauto|lia]. }
  destruct Hsh as (v & Hv). destruct (d =? 0)%N; [rewrite Hv; eexists; reflexivity|].
  assert (Ho : is_one W c = false).
  { unfold is_one. cbn [eqb one int_num]. rewrite ival_mk_int; [lia|]. unfold in_range. pose proof (imin_max t). lia. }
  rewrite Ho, Hv. cbn [negb]. eexists. reflexivity.
Qed.

Lemma bad_minus : term_from_str W X (lit "- ") = inr CoeffCouldNotBeParsed.
Proof. reflexivity. Qed.

Lemma foldM_trail ts : forall acc, (forall u, In u ts -> exists s, trailing_term W X (fst u) (snd u) = Ok s) ->
  exists s, foldM (fun acc u => s <- trailing_term W X (fst u) (snd u) ;; Ok (acc ++ s)) acc ts = Ok (acc ++ s).
Proof.
  induction ts as [|u ts IH]; intros acc H; cbn [foldM]; [exists []; rewrite app_nil_r; reflexivity|].
  destruct (H u (or_introl eq_refl)) as (s & ->). cbn [bind]. destruct (IH (acc ++ s)) as (s' & ->); [intros v Hv; apply H; right; exact Hv|].
  exists (s ++ s'). rewrite app_assoc. reflexivity.
Qed.
Lemma trailing_wrap c d : exists s, trailing_term W X c d = Ok s.
Proof.
  unfold trailing_term. assert (H : exists a, absv W c = Ok a).
  { cbn [absv int_num]. destruct (signed t); [|eauto]. unfold arith. destruct (in_range t _); eauto. }
  destruct H as (a & ->). cbn [bind]. destruct (d =? 0)%N; eauto.
Qed.

Lemma min_tokens ts : signed t = true -> forall cur c0 d0, cur <> [] ->
  (forall sp, forallb is_sep sp = true -> term_from_str W X (cur ++ sp) = inl (TTerm c0 d0)) ->
  Forall (term_ok W) ts -> Exists (fun u => ival (fst u) = imin t) ts -> forall acc,
  exists s pre post, foldM (fun acc u => s <- trailing_term W X (fst u) (snd u) ;; Ok (acc ++ s)) acc ts = Ok (acc ++ s) /\
    parse_all W X (split_tok true cur s) = (pre, Some CoeffCouldNotBeParsed) /\ (c0, d0) :: ts = pre ++ post.
Proof.
  intros Hsg. induction ts as [|[c d] ts IH]; intros cur c0 d0 Hne Hcur Hts Hex acc; [inversion Hex|]. cbn [foldM].
  inversion Hts as [|? ? [Hz Hd] Hts']; subst. cbn [fst snd] in *. destruct (Z.eq_dec (ival c) (imin t)) as [Hc|Hc].
  - destruct (trailing_min c d Hsg Hc) as (u & E). rewrite E. cbn [bind].
    destruct (foldM_trail ts (acc ++ ch " " :: ch "-" :: ch " " :: ch "-" :: u)) as (s & ->); [intros v _; apply trailing_wrap|].
    exists ((ch " " :: ch "-" :: ch " " :: ch "-" :: u) ++ s), [(c0, d0)], ((c, d) :: ts).
    split; [rewrite <- app_assoc; reflexivity|]. split; [|reflexivity].
    change ((ch " " :: ch "-" :: ch " " :: ch "-" :: u) ++ s) with ([ch " "] ++ ch "-" :: [ch " "] ++ ch "-" :: u ++ s).
    rewrite split_run by reflexivity. cbn [split_tok]. change (is_sign (ch "-")) with true. cbn iota.
    rewrite split_run by reflexivity. cbn [split_tok]. change (is_sign (ch "-")) with true. cbn iota.
    cbn [parse_all]. rewrite Hcur by reflexivity. change ([ch "-"] ++ [ch " "]) with (lit "- "). rewrite bad_minus. reflexivity.
  - assert (Ht : trail_ok W X c).
    { apply int_trail_ok; [|auto]. cbn [is_zero int_num] in Hz. lia. }
    destruct (trailing_spec W X c d Ht Hd) as (body & E & Hn & Hp). rewrite E. cbn [bind].
    destruct (IH (sgn W c :: ch " " :: body) c d) with (acc := acc ++ ch " " :: sgn W c :: ch " " :: body) as (s & pre & post & E2 & P2 & Q2).
    + discriminate.
    + intros sp Hs. rewrite Hp by exact Hs. rewrite term_new_nz by exact Hz. reflexivity.
    + exact Hts'.
    + inversion Hex as [? ? Hx|? ? Hx]; subst; [cbn in Hx; contradiction|exact Hx].
    + exists ((ch " " :: sgn W c :: ch " " :: body) ++ s), ((c0, d0) :: pre), post. split; [rewrite E2, <- app_assoc; reflexivity|].
      split; [|cbn [app]; rewrite Q2; reflexivity].
      change ((ch " " :: sgn W c :: ch " " :: body) ++ s) with ([ch " "] ++ sgn W c :: (ch " " :: body) ++ s).
      rewrite split_run by reflexivity. cbn [split_tok].
      assert (Hss : is_sign (sgn W c) = true) by (unfold sgn; destruct (is_pos W c); reflexivity). rewrite Hss.
      rewrite split_run by (apply (nosign_app [ch " "]); split; [reflexivity|exact Hn]).
      cbn [parse_all]. rewrite Hcur by reflexivity. change ([sgn W c] ++ ch " " :: body) with (sgn W c :: ch " " :: body). rewrite P2. reflexivity.
Qed.

Lemma min_show_terms ts : signed t = true -> Forall (term_ok W) ts -> Exists (fun u => ival (fst u) = imin t) (tl ts) ->
  exists s pre post, show_terms W X ts = Ok s /\ s <> [] /\ parse_all W X (tokens s) = (pre, Some CoeffCouldNotBeParsed) /\ ts = pre ++ post.
Proof.
  intros Hsg Hok Hex. destruct ts as [|[c d] ts]; [inversion Hex|]. cbn [show_terms tl] in *.
  inversion Hok as [|? ? [Hz Hd] Hok']; subst. cbn [fst snd] in *.
  destruct (leading_first W X c d (int_lead_ok false t c)) as (x & u & E & Hw & Hu).
  destruct (min_tokens ts Hsg (leading_term W X c d) c d) with (acc := leading_term W X c d) as (s & pre & post & E1 & E2 & E3).
  - rewrite E. discriminate.
  - intros sp Hs. rewrite (parse_leading W X) by (try assumption; apply int_lead_ok). rewrite term_new_nz by exact Hz. reflexivity.
  - exact Hok'.
  - exact Hex.
  - exists (leading_term W X c d ++ s), pre, post. split; [exact E1|]. split; [rewrite E; discriminate|]. split; [|exact E3].
    unfold tokens. rewrite E. rewrite split_first by assumption. rewrite <- E. exact E2.
Qed.
End MinShow.

Section MinMode.
Context (chk : bool) (t : ity) (R : comring) (den : int t -> car R) (fits : car R -> Prop) (val : car R -> Z).
Context (L : lawful (int_num chk t) R den) (V0 : val r0 = 0%Z) (V : forall c, val (den c) = ival c).
Notation O := (int_num chk t).

Lemma listing_min (p : poly R) ts : is_listing p (dterms R den ts) -> (forall i, exists c, den c = p i) -> min_trails t (fun d => val (p d)) ->
  signed t = true /\ Exists (fun u => ival (fst u) = imin t) (tl ts).
Proof.
  intros Hl Hrep (Hs & d & e & Hd & Hde & He). split; [exact Hs|].
  pose proof (listing_lists O R den L p ts Hl) as [Hsort Hin].
  destruct (Hrep d) as (c & Hc), (Hrep e) as (c' & Hc').
  assert (I1 : In (c, N.of_nat d) ts).
  { apply Hin. rewrite Nat2N.id. split; [|congruence]. intros H. rewrite <- Hc, H, V0 in Hd.
    assert (imin t < 0)%Z by (destruct t; try discriminate Hs; vm_compute; reflexivity). lia. }
  assert (I2 : In (c', N.of_nat e) ts).
  { apply Hin. rewrite Nat2N.id. split; [|congruence]. intros H. rewrite <- Hc', H, V0 in He. congruence. }
  destruct ts as [|u ts]; [destruct I1|]. inversion Hsort as [|? ? _ Hlt]; subst. rewrite Forall_forall in Hlt. cbn [tl].
  apply Exists_exists. exists (c, N.of_nat d). split; [|cbn [fst]; rewrite <- V, Hc; exact Hd].
  destruct I1 as [->|I1]; [|exact I1]. exfalso. destruct I2 as [E|I2]; [injection E as _ E; lia|]. specialize (Hlt _ I2). cbn in Hlt. lia.
Qed.
End MinMode.

(** Overflow checks on: formatting panics. *)
Theorem C33_checked_panics_refuted : forall t,
  (forall l, min_trails t (dcoef Z_ring ival l) -> dense_show (int_num true t) (int_txt t) l = Panic POverflow) /\
  (forall m, swf m -> min_trails t (scoef Z_ring ival m) -> sparse_show (int_num true t) (int_txt t) m = Panic POverflow) /\
  (forall b, min_trails t (bpoly Z_ring ival b) -> bino_show (int_num true t) (int_txt t) b = Panic POverflow) /\
  (forall b, min_trails t (tpoly Z_ring ival b) -> trino_show (int_num true t) (int_txt t) b = Panic POverflow).
Proof.
  intros t. pose proof (checked_lawful t) as L.
  assert (G : forall p ts, is_listing p (dterms Z_ring ival ts) -> (forall i, exists c : int t, ival c = p i) -> min_trails t p ->
    show_terms (int_num true t) (int_txt t) ts = Panic POverflow).
  { intros p ts Hl Hr Hm. destruct (listing_min true t Z_ring ival (fun z => z) L eq_refl (fun _ => eq_refl) p ts Hl Hr Hm) as [Hs Hx].
    destruct ts as [|[c d] ts]; [inversion Hx|]. apply show_checked; assumption. }
  split; [|split; [|split]].
  - intros l Hm. destruct (dense_terms_spec (int_num true t) Z_ring ival L l) as (ts & E & Hl & _). unfold dense_show. rewrite E. cbn [bind].
    apply (G (dcoef Z_ring ival l) ts Hl); [intros i; apply (coef_rep _ _ _ L)|exact Hm].
  - intros m Hv Hm. apply (G (scoef Z_ring ival m)); [apply (sparse_terms_spec _ _ _ L), Hv|intros i; apply (scoef_rep _ _ _ L), Hv|exact Hm].
  - intros b Hm. destruct (enum_terms_listing (int_num true t) Z_ring ival L 1 (bino_list b) 0 (or_intror eq_refl)) as (ts & E & Hl & _).
    unfold bino_show, bino_terms. rewrite E. cbn [bind]. apply (G (bpoly Z_ring ival b) ts Hl); [intros i; apply (coef_rep _ _ _ L)|exact Hm].
  - intros b Hm. destruct (enum_terms_listing (int_num true t) Z_ring ival L 2 (trino_list b) 0 (or_intror eq_refl)) as (ts & E & Hl & _).
    unfold trino_show, trino_terms. rewrite E. cbn [bind]. apply (G (tpoly Z_ring ival b) ts Hl); [intros i; apply (coef_rep _ _ _ L)|exact Hm].
Qed.

Lemma prefix_sorted {A} (lt : A -> A -> Prop) pre post : StronglySorted lt (pre ++ post) -> StronglySorted lt pre.
Proof.
  induction pre as [|x pre IH]; intros H; [constructor|]. inversion H as [|? ? H1 H2]; subst. constructor; [auto|].
  rewrite Forall_app in H2. apply H2.
Qed.

(** Overflow checks off: text is produced, and the same type cannot read it. *)
Theorem C33_wrapping_unreadable_refuted : forall t,
  (forall l, vec_ok (int_num false t) l -> min_trails t (dcoef Z_ring ival l) ->
     exists s, dense_show (int_num false t) (int_txt t) l = Ok s /\
       dense_from_str (int_num false t) (int_txt t) s = Ok (inr (TermFromString CoeffCouldNotBeParsed))) /\
  (forall m, swf m -> min_trails t (scoef Z_ring ival m) ->
     exists s, sparse_show (int_num false t) (int_txt t) m = Ok s /\
       sparse_from_str (int_num false t) (int_txt t) s = Ok (inr (TermFromString CoeffCouldNotBeParsed))).
Proof.
  intros t. pose proof (wrapping_lawful t) as L. pose proof (total_fits _ (w_ring t) (fun a => a) (wrapping_total t)) as F.
  assert (V0 : ival (@r0 (w_ring t)) = 0%Z) by (apply ival_mk_int, in_range_iff; pose proof (imin_max t); lia).
  assert (V : forall c : int t, ival ((fun a : int t => a) c) = ival c) by reflexivity.
  split.
  - intros l Hv Hm. destruct (dense_terms_spec _ (w_ring t) (fun a : int t => a) L l) as (ts & E & Hl & Hd).
    assert (Hm' : min_trails t (fun d => ival (dcoef (w_ring t) (fun a : int t => a) l d))).
    { destruct Hm as (Hs & d & e & A & B & C). split; [exact Hs|]. exists d, e. rewrite !dcoef_ival. auto. }
    destruct (listing_min false t (w_ring t) (fun a => a) ival L V0 V _ ts Hl ltac:(intros i; apply (coef_rep _ _ _ L)) Hm') as [Hs Hx].
    assert (Hok : Forall (term_ok (int_num false t)) ts).
    { apply (listing_ok false t (w_ring t) (fun a => a) L (dcoef (w_ring t) (fun a : int t => a) l) ts (fun d => (d <= USIZE_MAX)%N)); [auto|exact Hl|].
      pose proof (lw_cap _ _ _ L). unfold vec_ok in Hv. eapply Forall_impl; [|exact Hd]. intros u Hu. unfold USIZE_MAX. cbv beta in Hu. lia. }
    destruct (min_show_terms t ts Hs Hok Hx) as (s & pre & post & E1 & E2 & E3 & E4). exists s.
    split; [unfold dense_show; rewrite E; exact E1|]. unfold dense_from_str. rewrite poly_from_str_spec, E3. cbn [fst snd].
    destruct (dense_zero_ok _ (w_ring t) (fun a => a) L) as [Hv0 H0]. pose proof (lw_cap _ _ _ L) as Hcap.
    destruct (@apply_distinct (int t) (list (int t)) (w_ring t) (fun a : int t => a) (vec_ok (int_num false t)) (dcoef (w_ring t) (fun a : int t => a)) (dense_mut (int_num false t))
      (dense_sink _ _ _ L) (fun d => (d + 1 <= n_max_len (int_num false t))%N)) with (ts := pre) (p := @dense_zero (int t)) as (r & Er & _).
    + intros d H. unfold USIZE_MAX. lia.
    + intros p c d Hp Ho _. cbn. assert (Hdm : (d < USIZE_MAX)%N) by (unfold USIZE_MAX; lia).
      destruct (proj2 (proj1 (C26_dense_returns _ _ _ _ _ L F p c d Hp Hdm)) (conj Ho I)) as (q & Hq).
      unfold dense_try_add_term in *. inv_ok. exists v. rewrite E0. reflexivity.
    + exact Hv0.
    + destruct Hl as (Hsort & _). apply (StrShow.sorted_dterms (w_ring t)) in Hsort. rewrite E4 in Hsort. eapply prefix_sorted, Hsort.
    + rewrite E4, Forall_app in Hd. destruct Hd as [Hd _]. rewrite Forall_forall in *. intros u Hu. specialize (Hd u Hu). eapply N.le_trans; [|exact Hv].
      rewrite N.add_1_r. apply N.le_succ_l. exact Hd.
    + intros u _. apply H0.
    + destruct s; [congruence|]. rewrite Er. reflexivity.
  - intros m Hv Hm. pose proof (sparse_terms_spec _ (w_ring t) (fun a : int t => a) L m (proj1 Hv)) as Hl.
    assert (Hm' : min_trails t (fun d => ival (scoef (w_ring t) (fun a : int t => a) m d))).
    { destruct Hm as (Hs & d & e & A & B & C). split; [exact Hs|]. exists d, e. rewrite !(scoef_val t (w_ring t) (fun a => a) ival V0 V) by exact Hv. auto. }
    destruct (listing_min false t (w_ring t) (fun a => a) ival L V0 V _ _ Hl ltac:(intros i; apply (scoef_rep _ _ _ L), Hv) Hm') as [Hs Hx].
    assert (Hd : Forall (fun u => (snd u <= USIZE_MAX)%N) (sparse_terms (int_num false t) m)).
    { rewrite Forall_forall. intros [c d] Hu. cbn [snd]. destruct Hv as [_ Hv]. unfold sparse_terms in Hu.
      apply in_map_iff in Hu. destruct Hu as ([k v] & E & Hu). injection E as <- <-. apply filter_In in Hu. destruct Hu as [Hu _].
      apply in_rev in Hu. rewrite Forall_forall in Hv. apply (Hv (k, v) Hu). }
    assert (Hok : Forall (term_ok (int_num false t)) (sparse_terms (int_num false t) m)).
    { apply (listing_ok false t (w_ring t) (fun a => a) L _ _ (fun d => (d <= USIZE_MAX)%N) (fun d H => H) Hl Hd). }
    destruct (min_show_terms t _ Hs Hok Hx) as (s & pre & post & E1 & E2 & E3 & E4). exists s.
    split; [exact E1|]. unfold sparse_from_str. rewrite poly_from_str_spec, E3. cbn [fst snd].
    destruct (@apply_distinct (int t) (bmap (int t)) (w_ring t) (fun a : int t => a) swf (scoef (w_ring t) (fun a : int t => a)) (sparse_mut (int_num false t))
      (sparse_sink _ _ _ L) (fun d => (d <= USIZE_MAX)%N)) with (ts := pre) (p := @nil (N * int t)) as (r & Er & _).
    + auto.
    + intros p c d Hp Ho _. cbn.
      destruct (proj2 (proj1 (C26_sparse_returns _ _ _ _ _ L F p c d Hp)) I) as (q & Hq).
      unfold sparse_try_add_term in *. inv_ok. exists v. rewrite E. reflexivity.
    + exact swf_nil.
    + destruct Hl as (Hsort & _). apply (StrShow.sorted_dterms (w_ring t)) in Hsort. rewrite E4 in Hsort. eapply prefix_sorted, Hsort.
    + rewrite E4, Forall_app in Hd. apply Hd.
    + intros u _. reflexivity.
    + destruct s; [congruence|]. rewrite Er. reflexivity.
Qed.

Example C33_case : min_trails I8 (dcoef Z_ring ival (map (mk_int I8) [1; -128]%Z)) /\
  dense_show (int_num false I8) (int_txt I8) (map (mk_int I8) [1; -128]%Z) = Ok (lit "x - -128").
Proof. split; [|vm_compute; reflexivity]. split; [reflexivity|]. exists 0%nat, 1%nat. split; [vm_compute; reflexivity|]. split; [lia|vm_compute; discriminate]. Qed.
