(** Facts about the dense model: the scan for the leading coefficient, degree, trimming,
    coefficient lookup, listing, equality. *)

From Coq Require Import List NArith ZArith Lia Bool Ring Arith Sorted.
From Coq Require Import ZifyBool ZifyNat ZifyN.
From Verif Require Import Base Num Spec SpecFacts Laws Terms Dense.
Import ListNotations.

Section DenseFacts.
Context {T : Type} (O : num T) (R : comring) (den : T -> car R) (L : lawful O R den).
Add Ring Rring_df : (r_theory R).

(** The polynomial a coefficient vector stands for. *)
Definition dcoef (l : list T) : poly R := be_coef (map den l).

(** The same for a list of (coefficient, degree) pairs. *)
Definition dterms (ts : list (T * N)) : list (car R * N) := map (fun t => (den (fst t), snd t)) ts.

Definition all_zero (l : list T) : Prop := Forall (fun x => is_zero O x = true) l.

Lemma is_zero_den a : is_zero O a = true -> den a = r0.
Proof. apply (lw_is_zero _ _ _ L). Qed.
Lemma is_zero_false_den a : is_zero O a = false -> den a <> r0.
Proof. intros H E. apply (lw_is_zero _ _ _ L) in E. congruence. Qed.
Lemma is_zero_is_zero : is_zero O (zero O) = true.
Proof. apply (lw_is_zero _ _ _ L), (lw_zero _ _ _ L). Qed.
Lemma is_zero_eq a : is_zero O a = true -> a = zero O.
Proof. intros H. apply (lw_inj _ _ _ L). rewrite (lw_zero _ _ _ L). apply is_zero_den, H. Qed.
Lemma den_zero : den (zero O) = r0. Proof. apply (lw_zero _ _ _ L). Qed.

Lemma map_all_zero l : all_zero l -> map den l = repeat r0 (length l).
Proof.
  induction 1 as [|x l H _ IH]; simpl; [reflexivity|]. rewrite IH. f_equal. apply is_zero_den, H.
Qed.

Lemma dcoef_zeros pre l : all_zero pre -> peq (dcoef (pre ++ l)) (dcoef l).
Proof.
  intros H d. unfold dcoef. rewrite map_app, map_all_zero by exact H. apply be_coef_zeros.
Qed.

Lemma dcoef_all_zero l : all_zero l -> peq (dcoef l) pzero.
Proof. intros H d. unfold dcoef. rewrite map_all_zero by exact H. apply be_coef_repeat0. Qed.

Lemma dcoef_nil d : dcoef [] d = r0. Proof. apply be_coef_nil. Qed.

Lemma dcoef_cons c l d : dcoef (c :: l) d = if Nat.eqb d (length l) then den c else dcoef l d.
Proof. unfold dcoef. simpl map. rewrite be_coef_cons, map_length. reflexivity. Qed.

Lemma dcoef_overflow l d : (length l <= d)%nat -> dcoef l d = r0.
Proof. intros H. apply be_coef_overflow. rewrite map_length. exact H. Qed.

Lemma dcoef_app l1 l2 d : dcoef (l1 ++ l2) d =
  if Nat.ltb d (length l2) then dcoef l2 d else dcoef l1 (d - length l2).
Proof. unfold dcoef. rewrite map_app, be_coef_app, map_length. reflexivity. Qed.

Lemma all_zero_repeat n : all_zero (repeat (zero O) n).
Proof. apply Forall_forall. intros x Hx. apply repeat_spec in Hx. subst. apply is_zero_is_zero. Qed.

Lemma dcoef_zero_all l : peq (dcoef l) pzero -> all_zero l.
Proof.
  induction l as [|c l IH]; intros H; [constructor|].
  constructor.
  - apply (lw_is_zero _ _ _ L). specialize (H (length l)). rewrite dcoef_cons, Nat.eqb_refl in H. exact H.
  - apply IH. intros d. specialize (H d). rewrite dcoef_cons in H.
    destruct (Nat.eqb_spec d (length l)) as [E|E]; [|exact H]. apply dcoef_overflow. lia.
Qed.

(** ** the scan *)

Fixpoint fnz (l : list T) : nat :=
  match l with [] => 0 | v :: l' => if is_zero O v then S (fnz l') else 0 end.

Lemma fnz_rem_spec l base : fnz_rem O l base = base + fnz l.
Proof.
  revert base. induction l as [|v l IH]; intros base; simpl; [lia|].
  destruct (is_zero O v); simpl; [rewrite IH|]; lia.
Qed.

Lemma fnz_chunks_spec l base : fnz_chunks O l base = base + fnz l.
Proof.
  remember (length l) as n eqn:Hn. revert l base Hn.
  induction n as [n IH] using lt_wf_ind. intros l base Hn.
  destruct l as [|a [|b [|c [|d l]]]]; try apply (fnz_rem_spec _ base).
  simpl. destruct (is_zero O a), (is_zero O b), (is_zero O c), (is_zero O d); simpl; try lia.
  rewrite (IH (length l)) by (simpl in *; lia). lia.
Qed.

Lemma first_nonzero_index_fnz l : first_nonzero_index O l = fnz l.
Proof. apply fnz_chunks_spec. Qed.

(** Decomposition into leading zeros and the rest. *)
Lemma fnz_split l : exists pre post, l = pre ++ post /\ length pre = fnz l /\ all_zero pre /\
  match post with [] => True | c :: _ => is_zero O c = false end.
Proof.
  induction l as [|v l IH]; simpl.
  - exists [], []. repeat split; constructor.
  - destruct (is_zero O v) eqn:E.
    + destruct IH as (pre & post & -> & H1 & H2 & H3). exists (v :: pre), post.
      simpl. repeat split; auto. constructor; auto.
    + exists [], (v :: l). simpl. repeat split; auto. constructor.
Qed.

Lemma fnz_le l : (fnz l <= length l)%nat.
Proof. induction l as [|v l IH]; simpl; [lia|]. destruct (is_zero O v); lia. Qed.

Lemma skipn_length_app {A} (a b : list A) : skipn (length a) (a ++ b) = b.
Proof. induction a; simpl; auto. Qed.
Lemma firstn_length_app {A} (a b : list A) : firstn (length a) (a ++ b) = a.
Proof. induction a; simpl; f_equal; auto. Qed.

Definition strip (l : list T) : list T := skipn (fnz l) l.

Lemma strip_split l : exists pre, l = pre ++ strip l /\ length pre = fnz l /\ all_zero pre /\
  match strip l with [] => True | c :: _ => is_zero O c = false end.
Proof.
  destruct (fnz_split l) as (pre & post & E & H1 & H2 & H3). exists pre.
  assert (strip l = post) as ->.
  { unfold strip. rewrite <- H1, E. apply skipn_length_app. }
  auto.
Qed.

Lemma strip_coef l : peq (dcoef (strip l)) (dcoef l).
Proof.
  destruct (strip_split l) as (pre & E & _ & H & _). rewrite E at 2. apply peq_sym, dcoef_zeros, H.
Qed.

Lemma slice_from_strip l : slice_from l (first_nonzero_index O l) = Ok (strip l).
Proof.
  rewrite first_nonzero_index_fnz. unfold slice_from, strip. pose proof (fnz_le l).
  destruct (Nat.leb_spec (fnz l) (length l)); [reflexivity|lia].
Qed.

(** [trim] / [new]: total, removes exactly the leading zeros. *)
Lemma dense_new_ok l : dense_new O l = Ok (strip l).
Proof.
  unfold dense_new, dense_trim. destruct (Nat.eqb_spec (first_nonzero_index O l) 0) as [E|E].
  - f_equal. rewrite first_nonzero_index_fnz in E. unfold strip. rewrite E. reflexivity.
  - apply slice_from_strip.
Qed.

(** ** leading term *)

Lemma ft_rem_spec n l idx : (idx + len l = n)%N ->
  ft_rem O n l idx = match strip l with [] => ZeroTerm | c :: r => TTerm c (len r) end.
Proof.
  revert idx. unfold strip. induction l as [|v l IH]; intros idx H; simpl; [reflexivity|].
  destruct (is_zero O v) eqn:E; simpl.
  - apply IH. unfold len in *. simpl length in H. lia.
  - f_equal. unfold len in *. simpl length in H. lia.
Qed.

Lemma ft_chunks_spec n l base : (base + len l = n)%N ->
  ft_chunks O n l base = match strip l with [] => ZeroTerm | c :: r => TTerm c (len r) end.
Proof.
  remember (length l) as m eqn:Hm. revert l base Hm.
  induction m as [m IH] using lt_wf_ind. intros l base Hm H.
  destruct l as [|a [|b [|c [|d l]]]]; try (apply (ft_rem_spec n _ base); exact H).
  unfold len in H. simpl length in H.
  simpl ft_chunks. unfold strip. simpl fnz.
  destruct (is_zero O a); simpl negb; cbv iota; [|simpl; f_equal; unfold len; simpl length; lia].
  destruct (is_zero O b); simpl negb; cbv iota; [|simpl; f_equal; unfold len; simpl length; lia].
  destruct (is_zero O c); simpl negb; cbv iota; [|simpl; f_equal; unfold len; simpl length; lia].
  destruct (is_zero O d); simpl negb; cbv iota; [|simpl; f_equal; unfold len; simpl length; lia].
  apply (IH (length l)); [simpl in *; lia|reflexivity|]. unfold len. lia.
Qed.

Lemma first_term_strip l :
  first_term O l = match strip l with [] => ZeroTerm | c :: r => TTerm c (len r) end.
Proof. apply ft_chunks_spec. lia. Qed.

(** The leading term, in terms of the polynomial. *)
Lemma first_term_spec l :
  match first_term O l with
  | ZeroTerm => peq (dcoef l) pzero
  | TTerm c d => is_zero O c = false /\ dcoef l (N.to_nat d) = den c /\
                 (forall i, (N.to_nat d < i)%nat -> dcoef l i = r0) /\ (d < len l)%N
  end.
Proof.
  rewrite first_term_strip. pose proof (strip_coef l) as H.
  destruct (strip_split l) as (pre & E & _ & _ & Hc).
  destruct (strip l) as [|c r] eqn:Es.
  - eapply peq_trans; [apply peq_sym, H|]. intros d. apply dcoef_nil.
  - split; [exact Hc|]. split; [|split].
    + rewrite <- H, dcoef_cons. unfold len. rewrite Nat2N.id, Nat.eqb_refl. reflexivity.
    + intros i Hi. rewrite <- H. apply dcoef_overflow. simpl. unfold len in Hi. lia.
    + rewrite E. unfold len. rewrite app_length. simpl. lia.
Qed.

Definition dn (g : degree) : option nat :=
  match g with NegInf => None | Num n => Some (N.to_nat n) end.

Lemma dense_degree_strip l :
  dense_degree O l = match strip l with [] => NegInf | _ :: r => Num (len r) end.
Proof.
  unfold dense_degree. rewrite first_nonzero_index_fnz.
  destruct (strip_split l) as (pre & E & Hp & _ & _).
  pose proof (f_equal (@length T) E) as El. rewrite app_length in El.
  destruct (strip l) as [|c r]; simpl length in El;
    destruct (Nat.eqb_spec (fnz l) (length l)); try lia; try reflexivity.
  f_equal. unfold len. lia.
Qed.

Lemma dense_degree_spec l : is_degree (dcoef l) (dn (dense_degree O l)).
Proof.
  rewrite dense_degree_strip. pose proof (first_term_spec l) as H. rewrite first_term_strip in H.
  destruct (strip l) as [|c r]; simpl; [exact H|].
  destruct H as (H1 & H2 & H3 & _). split; [|exact H3]. rewrite H2. apply is_zero_false_den, H1.
Qed.

(** ** coefficient lookup *)

Lemma index_ok l i : (i < len l)%N -> exists c, index l i = Ok c /\ dcoef l (length l - 1 - N.to_nat i) = den c.
Proof.
  intros H. unfold index. destruct (N.ltb_spec i (len l)) as [_|]; [|lia].
  destruct (nth_error l (N.to_nat i)) as [c|] eqn:E.
  - exists c. split; [reflexivity|]. apply nth_error_split in E.
    destruct E as (l1 & l2 & -> & Hl). rewrite dcoef_app. simpl length. rewrite app_length. simpl length.
    destruct (Nat.ltb_spec (length l1 + S (length l2) - 1 - N.to_nat i) (S (length l2))); [|lia].
    rewrite dcoef_cons.
    destruct (Nat.eqb_spec (length l1 + S (length l2) - 1 - N.to_nat i) (length l2)); [reflexivity|lia].
  - apply nth_error_None in E. unfold len in H. lia.
Qed.

Lemma term_with_deg_spec l d : exists t, term_with_deg O l d = Ok t /\
  match t with
  | ZeroTerm => dcoef l (N.to_nat d) = r0
  | TTerm c k => k = d /\ is_zero O c = false /\ dcoef l (N.to_nat d) = den c
  end.
Proof.
  unfold term_with_deg. destruct (N.ltb_spec d (len l)) as [H|H].
  - rewrite !usub_le by lia. cbn [bind]. rewrite usub_le by lia. cbn [bind].
    destruct (index_ok l (len l - d - 1)) as (c & -> & Hc); [lia|]. cbn [bind].
    eexists. split; [reflexivity|]. unfold term_new.
    replace (length l - 1 - N.to_nat (len l - d - 1))%nat with (N.to_nat d) in Hc by (unfold len in *; lia).
    destruct (is_zero O c) eqn:E; [|auto]. rewrite Hc. apply is_zero_den, E.
  - eexists. split; [reflexivity|]. apply dcoef_overflow. unfold len in H. lia.
Qed.

(** ** listing *)

Lemma enum_terms_listing deg l i :
  l = [] \/ (N.to_nat deg + 1 = i + length l)%nat ->
  exists ts, enum_terms O deg i l = Ok ts /\ is_listing (dcoef l) (dterms ts) /\
    Forall (fun t => (snd t < len l)%N) ts.
Proof.
  revert i. induction l as [|c l IH]; intros i H; simpl.
  - exists []. split; [reflexivity|]. split; [|constructor]. apply is_listing_nil. intros d. apply dcoef_nil.
  - destruct H as [H|H]; [discriminate|]. simpl in H.
    destruct (IH (S i)) as (ts & E & Hl & Hb).
    { destruct l as [|c' l']; [left; reflexivity|right; simpl in *; lia]. }
    rewrite E. destruct (is_zero O c) eqn:Ec.
    + exists ts. split; [reflexivity|]. split.
      * eapply is_listing_ext; [|exact Hl]. intros d. symmetry. rewrite dcoef_cons.
        destruct (Nat.eqb_spec d (length l)) as [->|]; [|reflexivity].
        rewrite (is_zero_den _ Ec). symmetry. apply dcoef_overflow. lia.
      * eapply Forall_impl; [|exact Hb]. simpl. unfold len. simpl. lia.
    + rewrite usub_le by lia. cbn [bind].
      assert (Hk : (deg - N.of_nat i = len l)%N) by (unfold len; lia). rewrite Hk.
      eexists. split; [reflexivity|]. split.
      * simpl. apply is_listing_cons.
        -- apply is_zero_false_den, Ec.
        -- rewrite dcoef_cons. unfold len. rewrite Nat2N.id, Nat.eqb_refl. reflexivity.
        -- unfold dterms. apply Forall_map. simpl. exact Hb.
        -- eapply is_listing_ext; [|exact Hl]. intros d. rewrite dcoef_cons. unfold len. rewrite Nat2N.id.
           destruct (Nat.eqb_spec d (length l)) as [->|]; [|reflexivity]. apply dcoef_overflow. lia.
      * constructor; [unfold len; simpl; lia|].
        eapply Forall_impl; [|exact Hb]. simpl. unfold len. simpl. lia.
Qed.

Lemma dense_terms_spec l : exists ts, dense_terms O l = Ok ts /\ is_listing (dcoef l) (dterms ts) /\
    Forall (fun t => (snd t < len l)%N) ts.
Proof.
  unfold dense_terms. rewrite slice_from_strip. cbn [bind].
  destruct (enum_terms_listing (len (strip l) - 1) (strip l) 0) as (ts & -> & H1 & H2).
  { destruct (strip l); [left; reflexivity|right; unfold len; cbn [length]; lia]. }
  exists ts. split; [reflexivity|]. split.
  - eapply is_listing_ext; [apply strip_coef|exact H1].
  - eapply Forall_impl; [|exact H2]. simpl. intros a Ha.
    destruct (strip_split l) as (pre & E & _). apply (f_equal (@length T)) in E.
    rewrite app_length in E. unfold len in *. lia.
Qed.

(** ** equality *)

Lemma terms_eqb_spec a b : terms_eqb O a b = true <-> dterms a = dterms b.
Proof.
  revert b. induction a as [|[c d] a IH]; intros [|[c' d'] b]; simpl; split; intros H; try congruence.
  - rewrite !andb_true_iff, IH, N.eqb_eq, (lw_eqb _ _ _ L) in H. destruct H as ((-> & ->) & ->). reflexivity.
  - rewrite !andb_true_iff, IH, N.eqb_eq, (lw_eqb _ _ _ L). inversion H; auto.
Qed.

Lemma listing_eqb (p q : poly R) ta tb : is_listing p (dterms ta) -> is_listing q (dterms tb) ->
  terms_eqb O ta tb = true <-> peq p q.
Proof.
  intros Ha Hb. rewrite terms_eqb_spec. split; intros H.
  - rewrite H in Ha. destruct Ha as (_ & _ & Ha), Hb as (_ & _ & Hb).
    eapply peq_trans; [apply peq_sym, Ha|exact Hb].
  - eapply is_listing_unique; [exact Ha|]. eapply is_listing_ext; [apply peq_sym, H|exact Hb].
Qed.

Lemma dense_eq_spec a b : exists r, dense_eq O a b = Ok r /\ (r = true <-> peq (dcoef a) (dcoef b)).
Proof.
  unfold dense_eq. destruct (dense_terms_spec a) as (ta & -> & Ha & _), (dense_terms_spec b) as (tb & -> & Hb & _).
  simpl. eexists. split; [reflexivity|]. apply listing_eqb; assumption.
Qed.

End DenseFacts.
