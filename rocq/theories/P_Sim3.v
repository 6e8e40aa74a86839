(** Property C60: text and wider integer types. *)

From Coq Require Import String List NArith ZArith Lia Bool Arith.
From Coq Require Import ZifyBool ZifyNat ZifyN.
From Verif Require Import Base Num Terms Dense Sparse Mono Bino Trino ArrPoly PolyMath Strs Integr.
From Verif Require Import Floats Upcast UpcastFacts Sim SimSparse SimFixed SimText SimInst P_Sim1.
Import ListNotations.

Lemma with_max_enum {T} (O : num T) m deg l : forall i, enum_terms (with_max m O) deg i l = enum_terms O deg i l.
Proof. induction l as [|c l IH]; intros i; cbn; [reflexivity|]. rewrite IH. reflexivity. Qed.
Lemma with_max_terms {T} (O : num T) m l : dense_terms (with_max m O) l = dense_terms O l.
Proof.
  unfold dense_terms. change (first_nonzero_index (with_max m O) l) with (first_nonzero_index O l).
  destruct (slice_from _ _); cbn [bind]; [apply with_max_enum|reflexivity..].
Qed.
Lemma with_max_show {T} (O : num T) m X l : dense_show (with_max m O) X l = dense_show O X l.
Proof. unfold dense_show. rewrite with_max_terms. reflexivity. Qed.

(** Printing: a polynomial over [t] that prints prints the same after conversion to [u].  (Printing
    panics only where the absolute value of a coefficient does not fit.) *)
Theorem C60_display : forall chk powi t u, In (NI t, NI u) upcast_table ->
  let A := num_of true powi (NI t) in let B := num_of chk powi (NI u) in
  let V := same_value (NI t) (NI u) in
  (forall p p', Forall2 V p p' -> forall s, dense_show A (int_txt t) p = Ok s -> dense_show B (int_txt u) p' = Ok s) /\
  (forall p p', Forall2 (entry_rel V) p p' -> forall s, sparse_show A (int_txt t) p = Ok s -> sparse_show B (int_txt u) p' = Ok s) /\
  (forall p p', mono_rel V p p' -> mono_show A (int_txt t) p = mono_show B (int_txt u) p') /\
  (forall p p', bino_rel V p p' -> forall s, bino_show A (int_txt t) p = Ok s -> bino_show B (int_txt u) p' = Ok s) /\
  (forall p p', trino_rel V p p' -> forall s, trino_show A (int_txt t) p = Ok s -> trino_show B (int_txt u) p' = Ok s).
Proof.
  intros chk powi t u H A B V. pose proof (table_sim_nocap chk powi t u H) as S.
  assert (HX : forall x y, V x y -> show (int_txt t) x = show (int_txt u) y) by (intros x y K; apply widen_show, same_int_value, K).
  assert (K : forall (x y : res str), rres false eq x y -> forall s, x = Ok s -> y = Ok s).
  { intros x y K s ->. destruct K as [(b & -> & <-)|(K & _)]; [reflexivity|discriminate]. }
  split; [|split; [|split; [|split]]]; intros p p' Hp; try apply K.
  - rewrite <- (with_max_show B (n_max_len A)). exact (sim_dense_show A (with_max (n_max_len A) B) V false S (int_txt t) (int_txt u) HX p p' Hp).
  - exact (sim_sparse_show A (with_max (n_max_len A) B) V false S (int_txt t) (int_txt u) HX p p' Hp).
  - exact (sim_mono_show A (with_max (n_max_len A) B) V false S (int_txt t) (int_txt u) HX p p' Hp).
  - exact (sim_bino_show A (with_max (n_max_len A) B) V false S (int_txt t) (int_txt u) HX p p' Hp).
  - exact (sim_trino_show A (with_max (n_max_len A) B) V false S (int_txt t) (int_txt u) HX p p' Hp).
Qed.

(** Parsing: text that parses over [t] parses over [u], to the same polynomial; for [Polynomial] unless
    the larger coefficients do not fit the address space. *)
Theorem C60_parse : forall chk powi t u, In (NI t, NI u) upcast_table ->
  let A := num_of true powi (NI t) in let B := num_of chk powi (NI u) in
  let V := same_value (NI t) (NI u) in
  forall s,
  (forall p, dense_from_str A (int_txt t) s = Ok (inl p) ->
     (exists q, dense_from_str B (int_txt u) s = Ok (inl q) /\ Forall2 V p q) \/ dense_from_str B (int_txt u) s = Panic PCapacity) /\
  (forall p, sparse_from_str A (int_txt t) s = Ok (inl p) ->
     exists q, sparse_from_str B (int_txt u) s = Ok (inl q) /\ Forall2 (entry_rel V) p q) /\
  (forall p, mono_from_str A (int_txt t) s = Ok (inl p) -> exists q, mono_from_str B (int_txt u) s = Ok (inl q) /\ mono_rel V p q) /\
  (forall p, bino_from_str A (int_txt t) s = Ok (inl p) -> exists q, bino_from_str B (int_txt u) s = Ok (inl q) /\ bino_rel V p q) /\
  (forall p, trino_from_str A (int_txt t) s = Ok (inl p) -> exists q, trino_from_str B (int_txt u) s = Ok (inl q) /\ trino_rel V p q).
Proof.
  intros chk powi t u H A B V s. pose proof (table_sim chk powi t _ H) as S. pose proof (table_sim_nocap chk powi t u H) as S'.
  assert (HX : forall s v, parse (int_txt t) s = Some v -> exists w, parse (int_txt u) s = Some w /\ V v w).
  { intros s0 v Hv. destruct (widen_parse t u s0 v (table_widens t u H) Hv) as (w & E & K). exists w. split; [exact E|].
    apply same_int_value, K. }
  split; [|split; [|split; [|split]]]; intros p Hp.
  - assert (K : pres true (Forall2 V) (dense_from_str A (int_txt t) s) (dense_from_str B (int_txt u) s)).
    { eapply sim_poly_from_str; [exact S| |exact HX|constructor]. intros. cbn. eapply sim_dense_try_add_term; eassumption. }
    rewrite Hp in K. destruct K as [K|[_ K]]; [left|right]; exact K.
  - assert (K : pres false (Forall2 (entry_rel V)) (sparse_from_str A (int_txt t) s) (sparse_from_str (with_max (n_max_len A) B) (int_txt u) s)).
    { eapply sim_poly_from_str; [exact S'| |exact HX|constructor]. intros. cbn [s_add sparse_mut]. eapply sim_sparse_try_add_term; eassumption. }
    rewrite Hp in K. destruct K as [K|[K _]]; [exact K|discriminate].
  - assert (K : pres false (mono_rel V) (mono_from_str A (int_txt t) s) (mono_from_str (with_max (n_max_len A) B) (int_txt u) s)).
    { eapply sim_poly_from_str; [exact S'| |exact HX|eapply sim_mono_zero; exact S']. intros. cbn [s_add mono_mut]. eapply sim_mono_try_add_term; eassumption. }
    rewrite Hp in K. destruct K as [K|[K _]]; [exact K|discriminate].
  - assert (K : pres false (bino_rel V) (bino_from_str A (int_txt t) s) (bino_from_str (with_max (n_max_len A) B) (int_txt u) s)).
    { eapply sim_poly_from_str; [exact S'| |exact HX|split; apply (sm_zero _ _ _ _ S')]. intros. cbn [s_add bino_mut]. eapply sim_bino_try_add_term; eassumption. }
    rewrite Hp in K. destruct K as [K|[K _]]; [exact K|discriminate].
  - assert (K : pres false (trino_rel V) (trino_from_str A (int_txt t) s) (trino_from_str (with_max (n_max_len A) B) (int_txt u) s)).
    { eapply sim_poly_from_str; [exact S'| |exact HX|repeat split; apply (sm_zero _ _ _ _ S')]. intros. cbn [s_add trino_mut]. eapply sim_trino_try_add_term; eassumption. }
    rewrite Hp in K. destruct K as [K|[K _]]; [exact K|discriminate].
Qed.

(** The converse fails: "300x" parses over u16 and not over u8. *)
Theorem C60_narrower_refuted : forall powi, exists s q,
  sparse_from_str (num_of true powi (NI U16)) (int_txt U16) s = Ok (inl q) /\
  forall p, sparse_from_str (num_of true powi (NI U8)) (int_txt U8) s <> Ok (inl p).
Proof.
  intros powi. exists (lit "300x"%string). eexists. split; [vm_compute; reflexivity|]. intros p H. vm_compute in H. discriminate H.
Qed.

Example C60_display_case : forall t, t = I8 \/ t = I64 ->
  dense_show (int_num true t) (int_txt t) (map (mk_int t) [-1; 0; 127]%Z) = Ok (lit "-x^2 + 127"%string).
Proof. intros t [-> | ->]; vm_compute; reflexivity. Qed.
Example C60_parse_case : forall t, t = I8 \/ t = I64 ->
  rmap (fun r => match r with inl p => Some (map ival p) | inr _ => None end) (dense_from_str (int_num true t) (int_txt t) (lit "-128x^2 + x - 3"%string))
    = Ok (Some [-128; 1; -3]%Z).
Proof. intros t [-> | ->]; vm_compute; reflexivity. Qed.
