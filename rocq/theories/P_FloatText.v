(** Properties C77 and C78: printing and parsing f32/f64 polynomials. *)

From Coq Require Import String Ascii List NArith ZArith Reals Lia Lra Bool Arith Sorted.
From Coq Require Import ZifyBool ZifyNat ZifyN.
From Flocq Require Import Core BinarySingleNaN.
From Verif Require Import Base Num Spec Laws Terms Dense DenseFacts DenseMut Sparse SparseFacts SparseCalc Mono Bino Trino.
From Verif Require Import PolyMath MutFacts Strs StrFacts StrShow P_Str P_Str2 Coef Floats FloatFacts FloatCoef FloatText P_Struct.
Import ListNotations.
Local Open Scope nat_scope.

Section Sums.
Context {f : fty}.

(** The coefficients written with x^d, in order, and their sum from left to right. *)
Definition coeffs_at (d : nat) (ts : list (flt f * N)) : list (flt f) := map fst (filter (fun t => (snd t =? N.of_nat d)%N) ts).
Definition sum_at (d : nat) (ts : list (flt f * N)) (acc : flt f) : flt f := fold_left fadd (coeffs_at d ts) acc.

Lemma sum_at_cons c e ts d acc : sum_at d ((c, e) :: ts) acc = sum_at d ts (if (e =? N.of_nat d)%N then fadd acc c else acc).
Proof. unfold sum_at, coeffs_at. cbn [filter snd]. destruct (e =? N.of_nat d)%N; reflexivity. Qed.

Lemma fadd_zero_nz s (c : flt f) : feqb c (fzero f) = false -> fadd (B754_zero s) c = c.
Proof. destruct c as [t|t| |t m e H]; intros K; try reflexivity. discriminate K. Qed.
End Sums.

(** ** Adding terms one after the other *)

Section Sink.
Context (chk : bool) (f : fty) (powi : flt f -> N -> flt f).
Notation O := (float_num chk f powi).
Context {P : Type} (S : mutpoly (flt f) P) (inv : P -> Prop) (rd : P -> nat -> flt f) (okd : N -> Prop).

Definition adds : Prop := forall p c d, inv p -> okd d -> is_zero O c = false ->
  exists r, s_add S p c d = Ok (r, None) /\ inv r /\
    forall i, rd r i = if (d =? N.of_nat i)%N then fadd (rd p i) c else rd p i.
Context (HA : adds).

Lemma adds_terms ts : forall p, inv p -> Forall (fun t => is_zero O (fst t) = false /\ okd (snd t)) ts ->
  exists r, apply_terms (s_add S) ts p = Ok (r, None) /\ inv r /\ forall i, rd r i = sum_at i ts (rd p i).
Proof.
  induction ts as [|[c d] ts IH]; intros p Hp Ht; cbn [apply_terms].
  - exists p. split; [reflexivity|]. split; [exact Hp|]. reflexivity.
  - inversion Ht as [|? ? [Hz Hd] Ht']; subst. cbn [fst snd] in *. destruct (HA p c d Hp Hd Hz) as (q & Hq & Iq & Cq).
    rewrite Hq. cbn [bind fst snd]. destruct (IH q Iq Ht') as (r & Hr & Ir & Cr). exists r. split; [exact Hr|]. split; [exact Ir|].
    intros i. rewrite Cr, Cq, sum_at_cons. reflexivity.
Qed.
End Sink.

Section Sinks.
Context (chk : bool) (f : fty) (powi : flt f -> N -> flt f).
Notation O := (float_num chk f powi).
Notation z := (fzero f).

Lemma float_cap : (n_max_len O < USIZE_MAX)%N.
Proof. destruct f; reflexivity. Qed.

Lemma update_cf l i g r : update l i g = Ok r ->
  (i < len l)%N /\ length r = length l /\ exists y, g (cf z l (length l - 1 - N.to_nat i)) = Ok y /\
    forall d, cf z r d = if (d =? length l - 1 - N.to_nat i)%nat then y else cf z l d.
Proof.
  unfold update. destruct (N.ltb_spec i (len l)) as [Hi|]; [|discriminate]. intros H. split; [exact Hi|].
  apply update_nat_spec in H. destruct H as (pre & x & post & y & -> & Hp & Hy & ->).
  rewrite !app_length. simpl length. split; [reflexivity|]. exists y.
  replace (length pre + Datatypes.S (length post) - 1 - N.to_nat i)%nat with (length post) by lia. split.
  - rewrite cf_app. simpl length. destruct (Nat.ltb_spec (length post) (Datatypes.S (length post))); [|lia].
    rewrite cf_cons, Nat.eqb_refl. exact Hy.
  - intros d. rewrite !cf_app. simpl length. rewrite !cf_cons.
    destruct (Nat.eqb_spec d (length post)); destruct (Nat.ltb_spec d (Datatypes.S (length post))); try lia; reflexivity.
Qed.
Lemma update_total (l : list (flt f)) i g : (i < len l)%N -> exists r, update l i (fun x => Ok (g x)) = Ok r.
Proof.
  intros Hi. unfold update. destruct (N.ltb_spec i (len l)); [|lia]. destruct (nth_error l (N.to_nat i)) as [x|] eqn:E.
  - apply nth_error_split in E. destruct E as (pre & post & -> & Hp). rewrite <- Hp. rewrite (update_nat_complete _ _ _ _ (g x)) by reflexivity. eauto.
  - apply nth_error_None in E. unfold len in Hi. lia.
Qed.
Lemma update_at l i g d : (i < len l)%N -> (N.to_nat i + Datatypes.S d = length l)%nat ->
  exists r, update l i (fun x => Ok (g x)) = Ok r /\ length r = length l /\
    forall e, cf z r e = if (e =? d)%nat then g (cf z l e) else cf z l e.
Proof.
  intros Hi Hd. destruct (update_total l i g Hi) as (r & Hr). exists r. split; [exact Hr|].
  apply update_cf in Hr. destruct Hr as (_ & Hl & y & Hy & Hc). split; [exact Hl|]. injection Hy as <-.
  replace (length l - 1 - N.to_nat i)%nat with d in Hc by lia. intros e. rewrite Hc. destruct (Nat.eqb_spec e d) as [->|]; reflexivity.
Qed.

Lemma eqb_of_nat (d : N) (i : nat) : (i =? N.to_nat d)%nat = (d =? N.of_nat i)%N.
Proof. lia. Qed.

Lemma dense_adds : adds chk f powi (dense_mut O) (vec_ok O) (dpol O) (fun d => (d + 1 <= n_max_len O)%N).
Proof.
  intros l c d Hl Hd Hz. cbn [s_add dense_mut]. unfold dense_try_add_term. rewrite dense_add_term_upd. pose proof float_cap as Hcap.
  unfold vec_ok in *. rewrite upd_term_unfold by (unfold vec_ok; lia).
  destruct (N.leb_spec (N.max (len l) (d + 1)) (n_max_len O)) as [_|]; [|lia].
  pose proof (pad_to_len O l d) as Hp.
  destruct (update_at (pad_to O l d) (N.max (len l) (d + 1) - d - 1) (fun x => fadd x c) (N.to_nat d)) as (r & Hr & Lr & Cr).
  { unfold len in *. lia. } { unfold len in *. lia. }
  change (fun x => add O x c) with (fun x : flt f => Ok (fadd x c)). rewrite Hr. cbn [bind]. exists r. split; [reflexivity|].
  split; [unfold len in *; lia|]. intros i. unfold dpol. change (zero O) with z. rewrite Cr, eqb_of_nat.
  assert (E : cf z (pad_to O l d) i = cf z l i).
  { unfold pad_to. change (zero O) with z. rewrite cf_app. destruct (Nat.ltb_spec i (length l)); [reflexivity|].
    rewrite cf_repeat, cf_overflow by assumption. reflexivity. }
  rewrite E. reflexivity.
Qed.

Lemma sparse_adds : adds chk f powi (sparse_mut O) swf (spol O) (fun d => (d <= USIZE_MAX)%N).
Proof.
  intros m c d Hm Hd Hz. cbn [s_add sparse_mut]. unfold sparse_try_add_term, sparse_add_term. rewrite Hz. unfold m_upsert, spol.
  destruct (m_get d m) as [v|] eqn:E; cbn [bind add float_num]; (eexists; split; [reflexivity|]; split; [apply m_insert_wf; assumption|]);
    intros i; rewrite m_get_insert, N.eqb_sym; destruct (N.eqb_spec d (N.of_nat i)) as [<-|]; try reflexivity; rewrite E; [reflexivity|].
  symmetry. apply (fadd_zero_nz false), Hz.
Qed.

Lemma bino_adds : adds chk f powi (bino_mut O) (fun _ => True) (fun b => dpol O (bino_list b)) (fun d => (d <= 1)%N).
Proof.
  intros [b0 b1] c d _ Hd Hz. cbn [s_add bino_mut]. unfold bino_try_add_term. destruct (N.leb_spec d 1) as [_|]; [|lia].
  assert (D : d = 0%N \/ d = 1%N) by lia.
  destruct D as [-> | ->]; (eexists; split; [cbv [bino_update N.eqb bind fst snd]; reflexivity|]; split; [exact I|]); intros [|[|i]]; try reflexivity;
    unfold dpol; rewrite !cf_overflow by (cbn; lia); match goal with |- context [(?a =? ?b)%N] => destruct (N.eqb_spec a b) end; (reflexivity || lia).
Qed.
Lemma trino_adds : adds chk f powi (trino_mut O) (fun _ => True) (fun b => dpol O (trino_list b)) (fun d => (d <= 2)%N).
Proof.
  intros [b0 b1 b2] c d _ Hd Hz. cbn [s_add trino_mut]. unfold trino_try_add_term. destruct (N.leb_spec d 2) as [_|]; [|lia].
  assert (D : d = 0%N \/ d = 1%N \/ d = 2%N) by lia.
  destruct D as [-> |[-> | ->]]; (eexists; split; [cbv [trino_update N.eqb bind fst snd]; reflexivity|]; split; [exact I|]); intros [|[|[|i]]]; try reflexivity;
    unfold dpol; rewrite !cf_overflow by (cbn; lia); match goal with |- context [(?a =? ?b)%N] => destruct (N.eqb_spec a b) end; (reflexivity || lia).
Qed.
End Sinks.

(** ** Printing one coefficient and reading it back *)

Lemma one_value (f : fty) (w : Z) : (Z.abs w <= 1)%Z -> is_finite (f_of_Z f w) = true /\ B2R (f_of_Z f w) = IZR w.
Proof.
  intros Hz. destruct (f_of_Z_small f w) as [A B]; [|auto]. assert (2 ^ 0 <= 2 ^ fprec f)%Z by (apply Z.pow_le_mono_r; destruct f; cbn; lia). lia.
Qed.

Section Coeff.
Context (chk : bool) (f : fty) (powi : flt f -> N -> flt f) (sh : flt f -> str) (HD : float_display f sh).
Notation O := (float_num chk f powi).
Notation X := (float_txt f sh).

Lemma fd_plain x : is_finite x = true -> plain (sh (Babs x)) /\ sh x = (if Bsign x then lit "-" else []) ++ sh (Babs x) /\
  float_parse f ((if Bsign x then ch "-" else ch "+") :: sh (Babs x)) = Some x /\ float_parse f (sh x) = Some x.
Proof.
  intros F. destruct (fd_finite f sh HD x F) as (ip & fp & Hs & Hn & Hi & Hf & E & Hp).
  assert (Pd : forall s, forallb is_digit s = true -> forallb plainch s = true).
  { intros s K. destruct s as [|c s]; [reflexivity|]. apply (digits_plain (c :: s)); [discriminate|exact K]. }
  assert (PL : plain (sh (Babs x))).
  { destruct Hs as [[-> _]| ->]; (split; [intros K; apply Hn; destruct ip; [reflexivity|discriminate K]|]).
    - apply Pd, Hi.
    - rewrite forallb_app. cbn [forallb]. rewrite (Pd ip Hi), (Pd fp Hf). reflexivity. }
  split; [exact PL|]. split; [exact E|]. split; [|exact Hp].
  assert (B : forall c t, sh (Babs x) = c :: t -> is_sign c = false).
  { intros c t K. destruct PL as [_ PL]. rewrite K in PL. cbn [forallb] in PL. apply andb_true_iff in PL. apply (plainch_facts c), PL. }
  destruct (literal_sign_irrelevant f (Bsign x) _ B (proj1 PL)) as [L1 L2]. rewrite L2. rewrite E in Hp.
  destruct (Bsign x); [exact Hp|]. cbn [app] in Hp. rewrite L1 in Hp. exact Hp.
Qed.

Lemma feqb_finite (a b : flt f) : is_finite a = true -> is_finite b = true -> feqb a b = true -> B2R a = B2R b.
Proof. intros Fa Fb H. unfold feqb in H. rewrite Beqb_correct in H by assumption. destruct (Req_bool_spec (B2R a) (B2R b)); [assumption|discriminate]. Qed.

Lemma is_zero_finite (c : flt f) : is_zero O c = false -> is_finite c = true -> B2R c <> 0%R.
Proof. intros Hz F H. destruct c as [s|s| |s m e B]; try discriminate. apply (B2R_finite_nonzero s m e B H) || (cbn in H; apply eq_0_F2R in H; destruct s; discriminate). Qed.

Lemma sign_of (c : flt f) : is_finite c = true -> B2R c <> 0%R -> Bsign c = Rlt_bool (B2R c) 0.
Proof.
  destruct c as [s|s| |s m e B]; intros F H; try discriminate; [elim H; reflexivity|]. cbn [Bsign B2R]. symmetry. destruct s.
  - apply Rlt_bool_true, F2R_lt_0. reflexivity.
  - apply Rlt_bool_false, F2R_ge_0. cbn. lia.
Qed.
Lemma by_value (a b : flt f) : is_finite a = true -> is_finite b = true -> B2R a = B2R b -> B2R a <> 0%R -> a = b.
Proof. intros Fa Fb E H. apply B2R_Bsign_inj; try assumption. rewrite !sign_of by (assumption || congruence). rewrite E. reflexivity. Qed.

Lemma parse_one c : is_finite c = true -> Rabs (B2R c) = 1%R -> float_parse f [if Bsign c then ch "-" else ch "+"; ch "1"] = Some c.
Proof.
  intros F H. apply float_parse_spec. exists (Bsign c), (lit "1"), []. split.
  - destruct (Bsign c); [apply (lit_int true (lit "-") (lit "1"))|apply (lit_int false (lit "+") (lit "1"))]; try constructor; discriminate.
  - assert (E : written (lit "1") [] = Rabs (B2R c)) by (rewrite H; unfold written; cbn; lra). rewrite E. apply nearest_self, F.
Qed.

Lemma float_lead_ok c : is_zero O c = false -> is_finite c = true -> lead_ok O X c.
Proof.
  intros Hz F. pose proof (is_zero_finite c Hz F) as Hn. destruct (fd_plain c F) as (PL & E & Hp & Hp2). unfold lead_ok. cbn [show parse float_txt eqb one is_neg_one float_num].
  destruct (one_value f 1 ltac:(lia)) as [F1 V1]. destruct (one_value f (-1) ltac:(lia)) as [F2 V2]. split; [|split; [|split]].
  - intros H. apply (by_value c _ F F1); [apply feqb_finite; assumption|exact Hn].
  - exists (sh (Babs c)). split; [exact PL|]. rewrite E. destruct (Bsign c); [right|left]; reflexivity.
  - exact Hp2.
  - intros H. apply (feqb_finite _ _ F F2) in H. rewrite V2 in H.
    assert (Hs : Bsign c = true) by (rewrite (sign_of c F Hn), H; apply Rlt_bool_true; lra).
    pose proof (parse_one c F) as K. rewrite Hs in K. apply K. rewrite H, Rabs_Ropp || rewrite H. unfold Rabs. destruct (Rcase_abs _); lra.
Qed.

Lemma pos_sign c : is_zero O c = false -> is_finite c = true -> sgn O c = if Bsign c then ch "-" else ch "+".
Proof.
  intros Hz F. pose proof (is_zero_finite c Hz F) as Hn. unfold sgn. cbn [is_pos float_num]. rewrite (sign_of c F Hn).
  rewrite Bltb_correct by (reflexivity || exact F). cbn [fzero B2R]. destruct (Rlt_bool_spec 0 (B2R c)), (Rlt_bool_spec (B2R c) 0); try lra; reflexivity.
Qed.

Lemma float_trail_ok c : is_zero O c = false -> is_finite c = true -> trail_ok O X c.
Proof.
  intros Hz F. destruct (fd_plain c F) as (PL & E & Hp & _). exists (Babs c). cbn [absv float_num show parse float_txt eqb one].
  split; [reflexivity|]. split; [exact PL|]. rewrite (pos_sign c Hz F). split; [exact Hp|]. intros H.
  destruct (one_value f 1 ltac:(lia)) as [F1 V1]. apply parse_one; [exact F|]. rewrite <- B2R_Babs.
  rewrite <- V1. apply feqb_finite; [rewrite is_finite_Babs; exact F|exact F1|exact H].
Qed.

Lemma parse_zero_text : parse_all O X (tokens (lit "0")) = ([], None).
Proof.
  change (tokens (lit "0")) with [lit "0"]. cbn [parse_all].
  assert (E : float_parse f (lit "0") = Some (fzero f)) by reflexivity.
  pose proof (term_text_sound O X (lit "0") _ (tt_const O X (lit "0") (fzero f) eq_refl E)) as K. rewrite K. reflexivity.
Qed.
Lemma float_show_parse ts : Forall (fun t => is_zero O (fst t) = false /\ (snd t <= USIZE_MAX)%N /\ is_finite (fst t) = true) ts ->
  exists s, show_terms O X ts = Ok s /\ s <> [] /\ parse_all O X (tokens s) = (ts, None).
Proof.
  intros Hg. destruct ts as [|u us] eqn:Ets.
  - exists (lit "0"). split; [reflexivity|]. split; [discriminate|]. apply parse_zero_text.
  - rewrite <- Ets in *. apply (show_terms_parse O X).
    + rewrite Ets. discriminate.
    + eapply Forall_impl; [|exact Hg]. intros t (A & B & C). split; assumption.
    + rewrite Ets in Hg |- *. inversion Hg as [|? ? (A & B & C) _]; subst. apply float_lead_ok; assumption.
    + unfold tail_ok. rewrite Ets in Hg |- *. inversion Hg as [|? ? _ Hg']; subst. cbn [tl]. eapply Forall_impl; [|exact Hg'].
      intros t (A & B & C). apply float_trail_ok; assumption.
Qed.
End Coeff.

(** ** Round trip *)

Section RoundTrip.
Context (chk : bool) (f : fty) (powi : flt f -> N -> flt f) (sh : flt f -> str) (HD : float_display f sh).
Notation O := (float_num chk f powi).
Notation X := (float_txt f sh).
Context {P : Type} (S : mutpoly (flt f) P) (inv : P -> Prop) (rd : P -> nat -> flt f) (okd : N -> Prop) (z : P).
Context (HA : adds chk f powi S inv rd okd) (Hz : inv z) (Hz0 : forall d, rd z d = fzero f).
Context (okd_max : forall d, okd d -> (d <= USIZE_MAX)%N).

Lemma sum_at_lists (p : nat -> flt f) ts d : lists_of O p ts -> fsame (sum_at d ts (fzero f)) (p d).
Proof.
  intros [Hs Hl]. 
  assert (G : coeffs_at d ts = if is_zero O (p d) then [] else [p d]).
  { assert (K : forall us, StronglySorted (fun a b : flt f * N => (snd b < snd a)%N) us -> (forall c, In (c, N.of_nat d) us <-> c = p d /\ is_zero O c = false) ->
      coeffs_at d us = if is_zero O (p d) then [] else [p d]).
    { clear ts Hs Hl. induction us as [|[c e] us IH]; intros Hs Hl.
      - destruct (is_zero O (p d)) eqn:E; [reflexivity|]. destruct (proj2 (Hl (p d)) (conj eq_refl E)).
      - inversion Hs as [|? ? Hs' Hlt]; subst. unfold coeffs_at. cbn [filter snd]. destruct (N.eqb_spec e (N.of_nat d)) as [->|He].
        + destruct (proj1 (Hl c) (or_introl eq_refl)) as [-> Hc]. rewrite Hc.
          assert (E : coeffs_at d us = []).
          { unfold coeffs_at. destruct (filter (fun t => (snd t =? N.of_nat d)%N) us) as [|[c' e'] r] eqn:Ef; [reflexivity|exfalso].
            assert (Hi : In (c', e') (filter (fun t => (snd t =? N.of_nat d)%N) us)) by (rewrite Ef; left; reflexivity).
            apply filter_In in Hi. destruct Hi as [Hi Hq]. rewrite Forall_forall in Hlt. specialize (Hlt _ Hi). cbn in *. lia. }
          unfold coeffs_at in E. cbn [map fst]. rewrite E. reflexivity.
        + apply IH; [exact Hs'|]. intros c'. rewrite <- Hl. cbn [In]. split; [auto|]. intros [K|K]; [injection K; congruence|exact K]. }
    apply K; [exact Hs|]. intros c. rewrite Hl, Nat2N.id. reflexivity. }
  unfold sum_at. rewrite G. destruct (is_zero O (p d)) eqn:E; cbn [fold_left].
  - right. split; [reflexivity|exact E].
  - unfold fzero. rewrite (fadd_zero_nz false _ E). apply fsame_refl.
Qed.

Lemma float_round_trip (p : nat -> flt f) ts : lists_of O p ts -> Forall (fun t => okd (snd t)) ts -> (forall d, is_finite (p d) = true) ->
  exists s r, show_terms O X ts = Ok s /\ poly_from_str O X S z s = Ok (inl r) /\ inv r /\ forall d, fsame (rd r d) (p d).
Proof.
  intros Hl Ho Hf. pose proof Hl as [Hs Hin].
  assert (Hg : Forall (fun t => is_zero O (fst t) = false /\ okd (snd t) /\ is_finite (fst t) = true) ts).
  { rewrite Forall_forall in *. intros [c d] Hc. destruct (proj1 (Hin c d) Hc) as [E Hn]. cbn [fst snd]. split; [exact Hn|]. split; [apply (Ho _ Hc)|]. rewrite E. apply Hf. }
  assert (G : exists s, show_terms O X ts = Ok s /\ s <> [] /\ parse_all O X (tokens s) = (ts, None)).
  { apply (float_show_parse chk f powi sh HD). eapply Forall_impl; [|exact Hg]. intros t (A & B & C). split; [exact A|]. split; [apply okd_max, B|exact C]. }
  destruct G as (s & E1 & E2 & E3).
  destruct (adds_terms chk f powi S inv rd okd HA ts z Hz) as (r & Er & Ir & Cr).
  { eapply Forall_impl; [|exact Hg]. intros t (A & B & C). auto. }
  exists s, r. split; [exact E1|]. split.
  - rewrite poly_from_str_spec, E3. cbn [fst snd]. destruct s; [congruence|]. rewrite Er. reflexivity.
  - split; [exact Ir|]. intros d. rewrite Cr, Hz0. apply (sum_at_lists p ts d Hl).
Qed.
End RoundTrip.

(** ** Texts with other characters *)

Section Legal.
Context {T : Type} (O : num T) (X : txt T).
Definition legal (c : N) : bool := is_sep c || is_numch c || (c =? ch "x")%N || (c =? ch "^")%N.

Lemma term_loop_legal s : forall v c sx sc t, term_loop O X s v c sx sc = inl t -> forallb legal s = true.
Proof.
  induction s as [|x s IH]; intros v c sx sc t H; [reflexivity|]. cbn [term_loop] in H. cbn [forallb]. unfold legal at 1.
  destruct (is_sep x); [cbn; eapply IH, H|]. destruct (is_numch x); [cbn; eapply IH, H|].
  destruct (x =? ch "x")%N.
  - destruct sx; [discriminate|]. destruct (coeff_at_x X v c); [|discriminate]. cbn. eapply IH, H.
  - destruct (x =? ch "^")%N; [|discriminate]. destruct sc; [discriminate|]. destruct sx; [|discriminate]. cbn. eapply IH, H.
Qed.
Lemma parse_all_legal toks : snd (parse_all O X toks) = None -> forallb legal (concat toks) = true.
Proof.
  induction toks as [|k ks IH]; intros H; [reflexivity|]. cbn [parse_all] in H. cbn [concat]. rewrite forallb_app.
  destruct (term_from_str O X k) as [t|e] eqn:E; [|discriminate]. rewrite (term_loop_legal _ _ _ _ _ _ E). cbn [andb].
  apply IH. destruct t; exact H.
Qed.
Lemma illegal_unread {P} (S : mutpoly T P) z s r : forallb legal s = false -> poly_from_str O X S z s <> Ok (inl r).
Proof.
  intros H K. rewrite poly_from_str_spec in K. destruct s as [|c s]; [discriminate|]. remember (c :: s) as s0.
  destruct (apply_terms _ _ _) as [[q [e|]]| |]; try discriminate K. cbn [bind snd fst] in K.
  destruct (snd (parse_all O X (tokens s0))) eqn:E; [discriminate|]. apply parse_all_legal in E. rewrite tokens_concat in E. congruence.
Qed.
End Legal.

Section NonFinite.
Context (chk : bool) (f : fty) (powi : flt f -> N -> flt f) (sh : flt f -> str) (HD : float_display f sh).
Notation O := (float_num chk f powi).
Notation X := (float_txt f sh).

Lemma nonfinite_text c : is_finite c = false -> forallb legal (sh c) = false.
Proof.
  destruct c as [s|s| |s m e B]; intros F; try discriminate F.
  - rewrite (fd_inf f sh HD). destruct s; reflexivity.
  - rewrite (fd_nan f sh HD). reflexivity.
Qed.
Lemma nonfinite_not_one c w : is_finite c = false -> feqb c (f_of_Z f w) = true -> is_finite (f_of_Z f w) = true -> False.
Proof. destruct c as [s|s| |s m e B]; intros F E G; try discriminate F; destruct (f_of_Z f w) as [t|t| |t m' e' B']; try discriminate G; try discriminate E; try destruct s; try destruct t; discriminate E. Qed.

Lemma leading_illegal c d : is_finite c = false -> forallb legal (leading_term O X c d) = false.
Proof.
  intros F. unfold leading_term. destruct (d =? 0)%N; [apply nonfinite_text, F|]. rewrite forallb_app.
  destruct (one_value f 1 ltac:(lia)) as [F1 _]. destruct (one_value f (-1) ltac:(lia)) as [F2 _]. unfold is_one. cbn [is_neg_one eqb one float_num show float_txt].
  destruct (feqb c (f_of_Z f (-1))) eqn:E; [destruct (nonfinite_not_one c _ F E F2)|].
  destruct (feqb c (f_of_Z f 1)) eqn:E1; [destruct (nonfinite_not_one c _ F E1 F1)|]. cbn [negb]. rewrite (nonfinite_text c F). reflexivity.
Qed.
Lemma trailing_total c d : exists s, trailing_term O X c d = Ok s.
Proof. unfold trailing_term. cbn [absv float_num bind]. destruct (d =? 0)%N; eauto. Qed.
Lemma trailing_illegal c d s : is_finite c = false -> trailing_term O X c d = Ok s -> forallb legal s = false.
Proof.
  intros F. unfold trailing_term. cbn [absv float_num bind]. assert (F' : is_finite (Babs c) = false) by (rewrite is_finite_Babs; exact F).
  destruct (one_value f 1 ltac:(lia)) as [F1 _]. unfold is_one. cbn [eqb one float_num show float_txt].
  destruct (feqb (Babs c) (f_of_Z f 1)) eqn:E1; [destruct (nonfinite_not_one _ _ F' E1 F1)|]. cbn [negb].
  destruct (d =? 0)%N; intros H; injection H as <-; rewrite !forallb_app, (nonfinite_text _ F'), ?andb_false_r; reflexivity.
Qed.

Lemma show_nonfinite ts : exists s, show_terms O X ts = Ok s /\ (Exists (fun t => is_finite (fst t) = false) ts -> forallb legal s = false).
Proof.
  destruct ts as [|[c d] ts]; cbn [show_terms].
  - exists (lit "0"). split; [reflexivity|]. intros H. inversion H.
  - assert (G : forall us acc, exists s, foldM (fun acc t => s <- trailing_term O X (fst t) (snd t) ;; Ok (acc ++ s)) acc us = Ok s /\
      (forallb legal acc = false \/ Exists (fun t => is_finite (fst t) = false) us -> forallb legal s = false)).
    { induction us as [|[c' d'] us IH]; intros acc; cbn [foldM].
      - exists acc. split; [reflexivity|]. intros [H|H]; [exact H|inversion H].
      - cbn [fst snd]. destruct (trailing_total c' d') as (t & Et). rewrite Et. cbn [bind]. destruct (IH (acc ++ t)) as (s & Es & Hs).
        exists s. split; [exact Es|]. intros H. apply Hs. rewrite forallb_app. destruct H as [->|H]; [left; reflexivity|].
        inversion H as [? ? H1|? ? H1]; subst; [left|right; exact H1]. rewrite (trailing_illegal c' d' t H1 Et). apply andb_false_r. }
    destruct (G ts (leading_term O X c d)) as (s & Es & Hs). exists s. split; [exact Es|]. intros H. apply Hs.
    inversion H as [? ? H1|? ? H1]; subst; [left; apply leading_illegal, H1|right; exact H1].
Qed.
Lemma lists_nonfinite p ts d : lists_of O p ts -> is_finite (p d) = false -> Exists (fun t => is_finite (fst t) = false) ts.
Proof.
  intros [_ Hl] F. apply Exists_exists. exists (p d, N.of_nat d). split; [|exact F]. apply Hl. rewrite Nat2N.id. split; [reflexivity|].
  destruct (p d) as [s|[]| |[] m e B]; try discriminate F; reflexivity.
Qed.
End NonFinite.

(** ** C77 *)

Lemma fsame_all_equal chk f powi (p q : nat -> flt f) : (forall d, is_finite (q d) = true) -> (forall d, fsame (p d) (q d)) ->
  all_equal (float_num chk f powi) p q.
Proof.
  intros Hf Hs d. specialize (Hf d). destruct (Hs d) as [E|E]; [|left; exact E]. rewrite E. cbn [is_zero eqb float_num].
  destruct (feqb (q d) (fzero f)) eqn:Z; [left; auto|right]. split; [reflexivity|]. split; [reflexivity|].
  unfold feqb. rewrite Beqb_correct by exact Hf. apply Req_bool_true. reflexivity.
Qed.

(** A float polynomial with finite coefficients, printed and parsed, is the same polynomial; [sh]
    is any rendering of floats that core's documentation allows. *)
Theorem C77_dense : forall chk f powi sh, float_display f sh -> let O := float_num chk f powi in
  forall l, vec_ok O l -> (forall d, is_finite (dpol O l d) = true) ->
  exists s r, dense_show O (float_txt f sh) l = Ok s /\ dense_from_str O (float_txt f sh) s = Ok (inl r) /\
    dense_eq O r l = Ok true /\ forall d, fsame (dpol O r d) (dpol O l d).
Proof.
  intros chk f powi sh HD O l Hv Hf. destruct (proj1 (C72_terms _ O eq_refl) l) as (ts & E & Hl).
  destruct (float_round_trip chk f powi sh HD (dense_mut O) (vec_ok O) (dpol O) (fun d => (d + 1 <= n_max_len O)%N) dense_zero (dense_adds chk f powi))
    with (p := dpol O l) (ts := ts) as (s & r & A & B & C & D).
  - unfold vec_ok. cbn. lia.
  - intros d. unfold dpol. apply cf_nil.
  - intros d Hd. pose proof (float_cap chk f powi). subst O. lia.
  - exact Hl.
  - apply Forall_forall. intros [c d] Hc. cbn [snd]. destruct Hl as [_ Hl]. apply Hl in Hc. destruct Hc as [Ec Hc]. unfold vec_ok in Hv.
    destruct (N.ltb_spec d (len l)); [lia|]. rewrite Ec in Hc. unfold dpol in Hc. rewrite cf_overflow in Hc by (unfold len in *; lia). discriminate Hc.
  - exact Hf.
  - exists s, r. split; [unfold dense_show; rewrite E; exact A|]. split; [exact B|]. split; [|exact D].
    destruct (proj1 (C72_equality _ O eq_refl) r l) as (b & Eb & Hb). rewrite Eb. f_equal. apply Hb. apply fsame_all_equal; assumption.
Qed.

Theorem C77_sparse : forall chk f powi sh, float_display f sh -> let O := float_num chk f powi in
  forall m, swf m -> (forall d, is_finite (spol O m d) = true) ->
  exists s r, sparse_show O (float_txt f sh) m = Ok s /\ sparse_from_str O (float_txt f sh) s = Ok (inl r) /\
    sparse_eq O r m = true /\ forall d, fsame (spol O r d) (spol O m d).
Proof.
  intros chk f powi sh HD O m Hm Hf. pose proof (proj1 (proj2 (C72_terms _ O eq_refl)) m Hm) as Hl.
  destruct (float_round_trip chk f powi sh HD (sparse_mut O) swf (spol O) (fun d => (d <= USIZE_MAX)%N) [] (sparse_adds chk f powi))
    with (p := spol O m) (ts := sparse_terms O m) as (s & r & A & B & C & D).
  - apply swf_nil.
  - intros d. reflexivity.
  - auto.
  - exact Hl.
  - apply Forall_forall. intros [c d] Hc. cbn [snd]. destruct Hl as [_ Hl]. apply Hl in Hc. destruct Hc as [Ec Hc].
    destruct (N.leb_spec d USIZE_MAX) as [|Hd]; [assumption|exfalso]. unfold spol in Ec. rewrite N2Nat.id in Ec.
    destruct (m_get d m) as [v|] eqn:E; [|rewrite Ec in Hc; discriminate Hc].
    destruct Hm as [_ Hm]. apply m_get_in in E. rewrite Forall_forall in Hm. specialize (Hm _ E). cbn [fst] in Hm. lia.
  - exact Hf.
  - exists s, r. split; [exact A|]. split; [exact B|]. split; [|exact D].
    apply (proj1 (proj2 (C72_equality _ O eq_refl) (float_eq_zero chk f powi)) r m C Hm). apply fsame_all_equal; assumption.
Qed.

Lemma list_degree chk f powi (l : list (flt f)) ts n : let O := float_num chk f powi in lists_of O (dpol O l) ts -> length l = Datatypes.S n ->
  Forall (fun t => (snd t <= N.of_nat n)%N) ts.
Proof.
  intros O Hl Hn. apply Forall_forall. intros [c d] Hc. cbn [snd]. destruct Hl as [_ Hl]. apply Hl in Hc. destruct Hc as [Ec Hc].
  destruct (N.leb_spec d (N.of_nat n)); [assumption|]. rewrite Ec in Hc. unfold dpol in Hc. rewrite cf_overflow in Hc by lia. discriminate Hc.
Qed.

Theorem C77_linear : forall chk f powi sh, float_display f sh -> let O := float_num chk f powi in
  forall b, (forall d, is_finite (dpol O (bino_list b) d) = true) ->
  exists s r, bino_show O (float_txt f sh) b = Ok s /\ bino_from_str O (float_txt f sh) s = Ok (inl r) /\
    bino_eq O r b = true /\ forall d, fsame (dpol O (bino_list r) d) (dpol O (bino_list b) d).
Proof.
  intros chk f powi sh HD O b Hf. destruct (proj1 (proj2 (proj2 (proj2 (C72_terms _ O eq_refl)))) b) as (ts & E & Hl).
  destruct (float_round_trip chk f powi sh HD (bino_mut O) (fun _ => True) (fun b => dpol O (bino_list b)) (fun d => (d <= 1)%N) (bino_zero O) (bino_adds chk f powi))
    with (p := dpol O (bino_list b)) (ts := ts) as (s & r & A & B & _ & D).
  - exact I.
  - intros [|[|d]]; [reflexivity|reflexivity|]. unfold dpol. apply cf_overflow. cbn. lia.
  - unfold USIZE_MAX. lia.
  - exact Hl.
  - apply (list_degree chk f powi (bino_list b) ts 1 Hl eq_refl).
  - exact Hf.
  - exists s, r. split; [unfold bino_show; rewrite E; exact A|]. split; [exact B|]. split; [|exact D].
    apply (proj1 (proj2 (proj2 (proj2 (C72_equality _ O eq_refl) (float_eq_zero chk f powi)))) r b). apply fsame_all_equal; assumption.
Qed.

Theorem C77_quadratic : forall chk f powi sh, float_display f sh -> let O := float_num chk f powi in
  forall b, (forall d, is_finite (dpol O (trino_list b) d) = true) ->
  exists s r, trino_show O (float_txt f sh) b = Ok s /\ trino_from_str O (float_txt f sh) s = Ok (inl r) /\
    trino_eq O r b = true /\ forall d, fsame (dpol O (trino_list r) d) (dpol O (trino_list b) d).
Proof.
  intros chk f powi sh HD O b Hf. destruct (proj2 (proj2 (proj2 (proj2 (C72_terms _ O eq_refl)))) b) as (ts & E & Hl).
  destruct (float_round_trip chk f powi sh HD (trino_mut O) (fun _ => True) (fun b => dpol O (trino_list b)) (fun d => (d <= 2)%N) (trino_zero O) (trino_adds chk f powi))
    with (p := dpol O (trino_list b)) (ts := ts) as (s & r & A & B & _ & D).
  - exact I.
  - intros [|[|[|d]]]; [reflexivity|reflexivity|reflexivity|]. unfold dpol. apply cf_overflow. cbn. lia.
  - unfold USIZE_MAX. lia.
  - exact Hl.
  - apply (list_degree chk f powi (trino_list b) ts 2 Hl eq_refl).
  - exact Hf.
  - exists s, r. split; [unfold trino_show; rewrite E; exact A|]. split; [exact B|]. split; [|exact D].
    apply (proj1 (proj2 (proj2 (proj2 (proj2 (C72_equality _ O eq_refl) (float_eq_zero chk f powi))))) r b). apply fsame_all_equal; assumption.
Qed.

Lemma mono_show_terms {T} (O : num T) X m : Ok (mono_show O X m) = show_terms O X (mono_terms O m).
Proof. unfold mono_show, mono_as_term, term_new, mono_terms. destruct (is_zero O (mcoef m)); reflexivity. Qed.

Theorem C77_mono : forall chk f powi sh, float_display f sh -> let O := float_num chk f powi in
  forall m : mono (flt f), (mdeg m <= USIZE_MAX)%N -> is_finite (mcoef m) = true ->
  exists r, mono_from_str O (float_txt f sh) (mono_show O (float_txt f sh) m) = Ok (inl r) /\
    mono_eq O r m = true /\ forall d, fsame (mpol O r d) (mpol O m d).
Proof.
  intros chk f powi sh HD O m Hd Hf.
  destruct (float_show_parse chk f powi sh HD (mono_terms O m)) as (s & A & B & C).
  { unfold mono_terms. destruct (is_zero O (mcoef m)) eqn:E; [constructor|]. constructor; [|constructor]. split; [exact E|]. split; [exact Hd|exact Hf]. }
  fold O in A, C. rewrite <- mono_show_terms in A. injection A as <-.
  assert (G : exists r, mono_from_str O (float_txt f sh) (mono_show O (float_txt f sh) m) = Ok (inl r) /\ forall d, fsame (mpol O r d) (mpol O m d)).
  { unfold mono_from_str. rewrite poly_from_str_spec, C. destruct (mono_show O (float_txt f sh) m); [congruence|]. cbn [fst snd]. unfold mono_terms.
    destruct (is_zero O (mcoef m)) eqn:E; cbn [apply_terms bind fst snd].
    - eexists. split; [reflexivity|]. intros d. right. unfold mpol. cbn [mono_zero mcoef mdeg]. split; [destruct (_ =? _)%N; reflexivity|].
      destruct (_ =? _)%N; [exact E|reflexivity].
    - change (s_add (mono_mut O) (mono_zero O) (mcoef m) (mdeg m)) with (mono_try_add_term O (mono_zero O) (mcoef m) (mdeg m)).
      unfold mono_try_add_term. change (mono_is_zero O (mono_zero O)) with true. cbn [add O float_num bind mono_zero mcoef fst snd].
      eexists. split; [reflexivity|]. intros d. unfold mpol. cbn [mcoef mdeg]. change (zero O) with (@B754_zero (fprec f) (femax f) false).
      rewrite (fadd_zero_nz false _ E). apply fsame_refl. }
  destruct G as (r & G1 & G2). exists r. split; [exact G1|]. split; [|exact G2].
  apply (proj1 (proj2 (proj2 (C72_equality _ O eq_refl) (float_eq_zero chk f powi))) r m). apply fsame_all_equal; [|exact G2].
  intros d. unfold mpol. destruct (_ =? _)%N; [exact Hf|reflexivity].
Qed.

(** Printing and parsing is not the identity on polynomials that hold an infinity or a NaN: the text
    printed for them is never accepted. *)
Theorem C77_nonfinite_refuted : forall chk f powi sh, float_display f sh -> let O := float_num chk f powi in let X := float_txt f sh in
  (forall l d, is_finite (dpol O l d) = false -> exists s, dense_show O X l = Ok s /\ forall r, dense_from_str O X s <> Ok (inl r)) /\
  (forall m d, swf m -> is_finite (spol O m d) = false -> exists s, sparse_show O X m = Ok s /\ forall r, sparse_from_str O X s <> Ok (inl r)) /\
  (forall m : mono (flt f), is_finite (mcoef m) = false -> forall r, mono_from_str O X (mono_show O X m) <> Ok (inl r)) /\
  (forall b d, is_finite (dpol O (bino_list b) d) = false -> exists s, bino_show O X b = Ok s /\ forall r, bino_from_str O X s <> Ok (inl r)) /\
  (forall b d, is_finite (dpol O (trino_list b) d) = false -> exists s, trino_show O X b = Ok s /\ forall r, trino_from_str O X s <> Ok (inl r)).
Proof.
  intros chk f powi sh HD O X. destruct (C72_terms _ O eq_refl) as (T1 & T2 & T3 & T4 & T5).
  assert (G : forall p ts d, lists_of O p ts -> is_finite (p d) = false -> exists s, show_terms O X ts = Ok s /\ forallb legal s = false).
  { intros p ts d Hl Hf. destruct (show_nonfinite chk f powi sh HD ts) as (s & E & Hs). exists s. split; [exact E|]. apply Hs.
    eapply lists_nonfinite; [exact Hl|exact Hf]. }
  split; [|split; [|split; [|split]]].
  - intros l d Hf. destruct (T1 l) as (ts & E & Hl). destruct (G _ ts d Hl Hf) as (s & Es & Hs). exists s.
    split; [unfold dense_show; rewrite E; exact Es|]. intros r. apply illegal_unread, Hs.
  - intros m d Hm Hf. destruct (G _ _ d (T2 m Hm) Hf) as (s & Es & Hs). exists s. split; [exact Es|]. intros r. apply illegal_unread, Hs.
  - intros m Hf r. destruct (G _ _ (N.to_nat (mdeg m)) (T3 m)) as (s & Es & Hs); [unfold mpol; rewrite N2Nat.id, N.eqb_refl; exact Hf|].
    rewrite <- mono_show_terms in Es. injection Es as <-. apply illegal_unread, Hs.
  - intros b d Hf. destruct (T4 b) as (ts & E & Hl). destruct (G _ ts d Hl Hf) as (s & Es & Hs). exists s.
    split; [unfold bino_show; rewrite E; exact Es|]. intros r. apply illegal_unread, Hs.
  - intros b d Hf. destruct (T5 b) as (ts & E & Hl). destruct (G _ ts d Hl Hf) as (s & Es & Hs). exists s.
    split; [unfold trino_show; rewrite E; exact Es|]. intros r. apply illegal_unread, Hs.
Qed.

(** ** C78: what parsing a float polynomial returns *)

Lemma numeric_no_seps s : numeric s -> no_seps s = s.
Proof.
  unfold numeric, no_seps. induction s as [|c s IH]; intros H; [reflexivity|]. cbn [forallb filter] in *. apply andb_true_iff in H. destruct H as [H1 H2].
  replace (sep_char c) with false; [cbn [negb]; rewrite IH by exact H2; reflexivity|]. symmetry. unfold sep_char, num_char in *. clear -H1. lia.
Qed.
Lemma digits_numeric s : forallb is_digit s = true -> numeric s.
Proof.
  intros H. unfold numeric. rewrite forallb_forall in *. intros c Hc. specialize (H c Hc). unfold num_char. unfold is_digit in H. change (ch "0") with 48%N in H. change (ch "9") with 57%N in H. lia.
Qed.
Lemma literal_numeric s neg ip fp : literal s neg ip fp -> numeric s.
Proof.
  assert (G : forall g sg, signs g sg -> numeric sg) by (intros g sg []; reflexivity).
  intros [n sg i Hg Hi Hn|n sg i q Hg Hi Hf Hn]; unfold numeric; rewrite ?forallb_app; cbn [forallb];
    rewrite (G _ _ Hg : forallb num_char sg = true), (digits_numeric _ Hi : forallb num_char i = true); [reflexivity|].
  rewrite (digits_numeric _ Hf : forallb num_char q = true). reflexivity.
Qed.
Lemma literal_long s neg ip fp : literal s neg ip fp -> s <> [] /\ forall c, s = [c] -> is_sign c = false.
Proof.
  assert (D : forall sg c i, sg ++ i = [c] -> i <> [] -> forallb is_digit i = true -> is_sign c = false).
  { intros sg c i E Hn Hi. destruct sg as [|a sg]; [|destruct sg, i; try discriminate E; congruence]. cbn in E. subst i. cbn in Hi. apply andb_true_iff in Hi. apply digit_not_sign, Hi. }
  intros [n sg i Hg Hi Hn|n sg i q Hg Hi Hf Hn].
  - split; [destruct sg, i; (discriminate || congruence)|]. intros c E. eapply D; eassumption.
  - split; [destruct sg, i; discriminate|]. intros c E. destruct sg as [|a sg].
    + destruct i as [|b i]; [|destruct i; discriminate E]. cbn in E. injection E as <- E. subst q. elim Hn; reflexivity.
    + destruct sg, i; discriminate E.
Qed.

(** usize::MAX is no usable degree; [DenseMut.upd_term_max] without its laws. *)
Lemma upd_term_top {T} (O : num T) l g : (n_max_len O < USIZE_MAX)%N -> vec_ok O l -> exists k, upd_term O l USIZE_MAX g = Panic k.
Proof.
  intros Hcap Hv. unfold upd_term. change (uadd (n_chk O) USIZE_MAX 1) with (if n_chk O then @Panic N POverflow else Ok 0%N).
  destruct (n_chk O) eqn:Ec; [simpl; eauto|]. cbn [bind].
  destruct (N.ltb_spec (len l) 0); [lia|]. cbn [bind]. unfold vec_ok in Hv.
  assert (Hu : usub false (len l) USIZE_MAX = Ok (len l + 1)%N).
  { unfold usub, USIZE_MAX, USIZE_MOD in *. destruct (N.leb_spec (2 ^ 64 - 1) (len l)); [lia|]. f_equal.
    rewrite (N.mod_small (2 ^ 64 - 1)) by lia. rewrite N.mod_small by lia. lia. }
  rewrite Hu. cbn [bind]. rewrite usub_le by lia. cbn [bind].
  unfold update. destruct (N.ltb_spec (len l + 1 - 1) (len l)); [lia|]. eauto.
Qed.

Section ParseFloat.
Context (chk : bool) (f : fty) (powi : flt f -> N -> flt f) (sh : flt f -> str).
Notation O := (float_num chk f powi).
Notation X := (float_txt f sh).

Lemma term_nonzero k c d : term_from_str O X k = inl (TTerm c d) -> is_zero O c = false.
Proof.
  intros H. apply C36_term_language in H. remember (TTerm c d) as t eqn:Et.
  assert (G : forall v e, term_new O v e = TTerm c d -> is_zero O c = false).
  { intros v e E. unfold term_new in E. destruct (is_zero O v) eqn:Z; [discriminate|]. injection E as <- _. exact Z. }
  destruct H; eapply G; exact Et.
Qed.
Lemma pairs_nonzero toks terms : parsed O X toks terms -> Forall (fun t => is_zero O (fst t) = false) (pairs terms).
Proof.
  induction 1 as [|k t ks ts E H IH]; cbn [pairs flat_map]; [constructor|]. destruct t as [|c d]; [exact IH|].
  constructor; [eapply term_nonzero, E|exact IH].
Qed.

(** [from] accepts exactly the nonempty texts all of whose terms parse and have a degree in [okd];
    the coefficient of x^d is then the float sum, from left to right, of those written with x^d. *)
Definition parses_to {P} (rd : P -> nat -> flt f) (okd : N -> Prop) (from : str -> res (P + poly_err)) : Prop :=
  (forall s toks terms, s <> [] -> is_tokenization s toks -> parsed O X toks terms -> Forall (fun t => okd (snd t)) (pairs terms) ->
     exists p, from s = Ok (inl p)) /\
  (forall s p, from s = Ok (inl p) -> s <> [] /\ exists toks terms, is_tokenization s toks /\ parsed O X toks terms /\
     Forall (fun t => okd (snd t)) (pairs terms) /\ forall d, rd p d = sum_at d (pairs terms) (fzero f)).

Context {P : Type} (S : mutpoly (flt f) P) (inv : P -> Prop) (rd : P -> nat -> flt f) (okd : N -> Prop) (z : P).
Context (HA : adds chk f powi S inv rd okd) (Hz : inv z) (Hz0 : forall d, rd z d = fzero f).
Context (HS : forall p c d r, inv p -> (d <= USIZE_MAX)%N -> s_add S p c d = Ok (r, None) -> okd d).

Lemma adds_okd ts : forall p r, inv p -> Forall (fun t => is_zero O (fst t) = false) ts -> Forall (fun t => (snd t <= USIZE_MAX)%N) ts ->
  apply_terms (s_add S) ts p = Ok (r, None) -> Forall (fun t => okd (snd t)) ts.
Proof.
  induction ts as [|[c d] ts IH]; intros p r Hp Hn Hm H; [constructor|]. cbn [apply_terms] in H.
  inversion Hn as [|? ? Hn1 Hn2]; subst. inversion Hm as [|? ? Hm1 Hm2]; subst. cbn [fst snd] in *.
  destruct (s_add S p c d) as [[q [e|]]| |] eqn:E; cbn [bind fst snd] in H; try discriminate H.
  pose proof (HS p c d q Hp Hm1 E) as Hd. constructor; [exact Hd|].
  destruct (HA p c d Hp Hd Hn1) as (q' & E' & Iq & _). rewrite E in E'. injection E' as <-. eapply IH; eassumption.
Qed.

Lemma parses_sink : parses_to rd okd (poly_from_str O X S z).
Proof.
  split.
  - intros s toks terms Hs Ht Hp Ho. rewrite (C34_tokens_unique s toks (tokens s) Ht (tokens_tokenization s)) in Hp.
    pose proof (parse_all_app O X _ _ [] Hp) as E. cbn [parse_all fst snd] in E. rewrite !app_nil_r in E.
    destruct (adds_terms chk f powi S inv rd okd HA (pairs terms) z Hz) as (r & Er & _).
    { pose proof (pairs_nonzero _ _ Hp) as Hn. rewrite Forall_forall in *. auto. }
    exists r. rewrite poly_from_str_spec, E. cbn [fst snd]. rewrite Er. destruct s; [congruence|reflexivity].
  - intros s p H. rewrite poly_from_str_spec in H. destruct s as [|x s]; [discriminate|]. split; [discriminate|].
    remember (x :: s) as s0 eqn:Es. clear Es. destruct (parse_all_split O X (tokens s0)) as (t1 & rest & terms & Et & Hp & Hf & Hs).
    destruct (apply_terms (s_add S) (fst (parse_all O X (tokens s0))) z) as [[q e]| |] eqn:E; cbn [bind snd fst] in H; try discriminate H.
    destruct e; [discriminate|]. destruct (snd (parse_all O X (tokens s0))); [discriminate|]. injection H as <-. subst rest.
    rewrite app_nil_r in Et. subst t1. rewrite Hf in E.
    pose proof (adds_okd _ z q Hz (pairs_nonzero _ _ Hp) (pairs_fine O X _ _ Hp) E) as Ho.
    exists (tokens s0), terms. split; [apply tokens_tokenization|]. split; [exact Hp|]. split; [exact Ho|].
    destruct (adds_terms chk f powi S inv rd okd HA (pairs terms) z Hz) as (r & Er & _ & Cr).
    { pose proof (pairs_nonzero _ _ Hp) as Hn. rewrite Forall_forall in *. auto. }
    rewrite E in Er. injection Er as <-. intros d. rewrite Cr, Hz0. reflexivity.
Qed.
End ParseFloat.

(** A term without x is accepted exactly when it is a decimal literal; its value is the float nearest
    to the literal, ties to even, and infinite when the literal is out of range. *)
Theorem C78_nearest : forall chk f powi sh, let O := float_num chk f powi in let X := float_txt f sh in
  (forall n t, numeric n -> (term_from_str O X n = inl t <->
     exists neg ip fp x, literal n neg ip fp /\ nearest f neg (written ip fp) x /\ t = term_new O x 0)) /\
  (forall n e neg ip fp x d, literal n neg ip fp -> nearest f neg (written ip fp) x -> forallb is_digit e = true -> parse_usize e = Some d ->
     term_from_str O X (n ++ lit "x") = inl (term_new O x 1) /\ term_from_str O X (n ++ lit "x^" ++ e) = inl (term_new O x d)) /\
  (forall neg v x y, nearest f neg v x -> nearest f neg v y -> x = y).
Proof.
  intros chk f powi sh O X. split; [|split].
  - intros n t Hn. split.
    + intros H. apply C36_term_language in H. rewrite (numeric_no_seps n Hn) in H.
      assert (N : forall a b, ~ numeric (a ++ ch "x" :: b)).
      { intros a b K. unfold numeric in K. rewrite forallb_app in K. apply andb_true_iff in K. destruct K as [_ K]. discriminate K. }
      inversion H as [m v Hm Hp E1 E2|m v Hc E1 E2|m v e d Hc He H0 Hd E1 E2|m v e1 e2 d Hc H1 H2 H0 Hd E1 E2].
      * apply float_parse_spec in Hp. destruct Hp as (neg & ip & fp & Hl & Hr). subst. exists neg, ip, fp, v. auto.
      * exfalso. subst n. apply (N m [] Hn).
      * exfalso. subst n. apply (N m e Hn).
      * exfalso. subst n. apply (N m (e1 ++ lit "^" ++ e2) Hn).
    + intros (neg & ip & fp & x & Hl & Hr & ->). apply term_text_sound. apply tt_const; [exact Hn|]. apply float_parse_spec. eauto.
  - intros n e neg ip fp x d Hl Hr He Hd. destruct (literal_long _ _ _ _ Hl) as [L1 L2].
    assert (C : coeff_text O X n x).
    { apply ct_num; [eapply literal_numeric, Hl|exact L1|exact L2|]. apply float_parse_spec. eauto. }
    split; apply term_text_sound; [apply tt_x, C|]. apply (tt_pow O X n x [] e d C).
    + reflexivity.
    + apply digits_numeric, He.
    + intros K. cbn in K. subst e. discriminate Hd.
    + exact Hd.
  - apply nearest_unique.
Qed.

Theorem C78_sum : forall chk f powi sh, let O := float_num chk f powi in let X := float_txt f sh in
  parses_to chk f powi sh (dpol O) (fun d => (d + 1 <= n_max_len O)%N) (dense_from_str O X) /\
  parses_to chk f powi sh (spol O) (fun d => (d <= USIZE_MAX)%N) (sparse_from_str O X) /\
  parses_to chk f powi sh (fun b => dpol O (bino_list b)) (fun d => (d <= 1)%N) (bino_from_str O X) /\
  parses_to chk f powi sh (fun b => dpol O (trino_list b)) (fun d => (d <= 2)%N) (trino_from_str O X).
Proof.
  intros chk f powi sh O X. split; [|split; [|split]].
  - apply (parses_sink chk f powi sh (dense_mut O) (vec_ok O) _ _ dense_zero (dense_adds chk f powi)).
    + unfold vec_ok. cbn. lia.
    + intros d. unfold dpol. apply cf_nil.
    + intros l c d r Hl Hd H. pose proof (float_cap chk f powi) as Hcap. cbn [s_add dense_mut] in H. unfold dense_try_add_term in H. rewrite dense_add_term_upd in H.
      destruct (N.eq_dec d USIZE_MAX) as [->|Hn].
      * destruct (upd_term_top O l (fun x => add O x c) Hcap Hl) as (k & E). rewrite E in H. discriminate H.
      * rewrite upd_term_unfold in H by (assumption || lia). destruct (N.leb_spec (N.max (len l) (d + 1)) (n_max_len O)); [eapply N.le_trans; [apply N.le_max_r|eassumption]|discriminate H].
  - apply (parses_sink chk f powi sh (sparse_mut O) swf _ _ [] (sparse_adds chk f powi)); [apply swf_nil|reflexivity|auto].
  - apply (parses_sink chk f powi sh (bino_mut O) (fun _ => True) (fun b => dpol O (bino_list b)) _ (bino_zero O) (bino_adds chk f powi)); [exact I| |].
    + intros [|[|d]]; [reflexivity|reflexivity|]. unfold dpol. apply cf_overflow. cbn. lia.
    + intros p c d r _ _ H. cbn [s_add bino_mut] in H. unfold bino_try_add_term in H. destruct (N.leb_spec d 1); [assumption|discriminate H].
  - apply (parses_sink chk f powi sh (trino_mut O) (fun _ => True) (fun b => dpol O (trino_list b)) _ (trino_zero O) (trino_adds chk f powi)); [exact I| |].
    + intros [|[|[|d]]]; [reflexivity|reflexivity|reflexivity|]. unfold dpol. apply cf_overflow. cbn. lia.
    + intros p c d r _ _ H. cbn [s_add trino_mut] in H. unfold trino_try_add_term in H. destruct (N.leb_spec d 2); [assumption|discriminate H].
Qed.

(** Successful parsing does not mean finite coefficients: a plain run of digits may be read as infinity. *)
Theorem C78_finite_refuted : forall chk f powi sh, let O := float_num chk f powi in
  exists s r, forallb is_digit s = true /\ dense_from_str O (float_txt f sh) s = Ok (inl r) /\ is_finite (dpol O r 0) = false.
Proof.
  intros chk f powi sh O. exists (ch "1" :: repeat (ch "0") 400), [B754_infinity false]. split; [reflexivity|]. split; [|reflexivity].
  destruct f; vm_compute; reflexivity.
Qed.

(** Cases that meet the hypotheses. *)
Notation O64 := (float_num true F64 (fun x _ => x)).
Notation X64 := (float_txt F64 (show_exact F64)).
Example C77_display_case : float_display F64 (show_exact F64) /\ float_display F32 (show_exact F32).
Proof. split; apply show_exact_display. Qed.
Example C77_case : let l := [dec_round F64 false 25 1; f_of_Z F64 (-1); fzero F64; dec_round F64 true 125 3] in
  dense_show O64 X64 l = Ok (lit "2.5" ++ repeat (ch "0") 50 ++ lit "x^3 - x^2 - 0.125" ++ repeat (ch "0") 52) /\ vec_ok O64 l /\ forallb is_finite l = true.
Proof. split; [vm_compute; reflexivity|]. split; [unfold vec_ok; vm_compute; discriminate|vm_compute; reflexivity]. Qed.
Example C77_nonfinite_case : let l := [f_of_Z F64 1; B754_infinity true] in
  is_finite (dpol O64 l 0) = false /\ dense_show O64 X64 l = Ok (lit "x - inf") /\
  dense_from_str O64 X64 (lit "x - inf") = Ok (inr (TermFromString (UnexpectedChar (ch "i")))).
Proof. repeat split; vm_compute; reflexivity. Qed.
(** 0.1 + 0.2 is rounded after each of the three steps. *)
Example C78_case :
  rmap (fun r => match r with
                 | inl b => (feqb (dpol O64 (bino_list b) 1) (fadd (dec_round F64 false 1 1) (dec_round F64 false 2 1)), feqb (dpol O64 (bino_list b) 1) (dec_round F64 false 3 1))
                 | inr _ => (false, true)
                 end) (bino_from_str O64 X64 (lit "0.1x + .2x - 1.")) = Ok (true, false).
Proof. vm_compute. reflexivity. Qed.
Example C78_literal_case : literal (lit "-12.50") true (lit "12") (lit "50") /\ written (lit "12") (lit "50") = (25 / 2)%R.
Proof. split; [apply (lit_dot true (lit "-") (lit "12") (lit "50")); (constructor || reflexivity || discriminate)|]. unfold written. cbn. lra. Qed.
