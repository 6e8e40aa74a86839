(** C72: what does not compute with coefficients needs no laws of them. *)

From Coq Require Import List NArith ZArith Reals Lia Bool Arith Sorted.
From Coq Require Import ZifyBool ZifyNat ZifyN.
From Flocq Require Import Core BinarySingleNaN.
From Verif Require Import Base Num Spec Terms Dense DenseFacts Mono Bino Trino ArrPoly Sparse SparseFacts SparseCalc DenseShift Coef Floats FloatCoef.
Import ListNotations.
Local Open Scope nat_scope.

(** ** Specification *)

Section Spec.
Context {T : Type} (O : num T).
Implicit Types p q : nat -> T.

Definition has_degree p (g : degree) : Prop :=
  match g with
  | NegInf => forall d, is_zero O (p d) = true
  | Num n => is_zero O (p (N.to_nat n)) = false /\ forall d, (N.to_nat n < d)%nat -> is_zero O (p d) = true
  end.

(** The non-zero terms, highest degree first. *)
Definition lists_of p (ts : list (T * N)) : Prop :=
  StronglySorted (fun a b => (snd b < snd a)%N) ts /\
  forall c d, In (c, d) ts <-> c = p (N.to_nat d) /\ is_zero O c = false.

Definition term_of p (d : N) : term T := if is_zero O (p (N.to_nat d)) then ZeroTerm else TTerm (p (N.to_nat d)) d.

(** The same coefficients; zeros may differ in representation (0.0 and -0.0). *)
Definition same_coefs p q : Prop := forall d, p d = q d \/ is_zero O (p d) = true /\ is_zero O (q d) = true.

(** Each coefficient of the one equals that of the other. *)
Definition all_equal p q : Prop := forall d,
  is_zero O (p d) = true /\ is_zero O (q d) = true \/
  is_zero O (p d) = false /\ is_zero O (q d) = false /\ eqb O (p d) (q d) = true.

(** The coefficients of each representation. *)
Definition dpol (l : list T) : nat -> T := cf (zero O) l.
Definition spol (m : bmap T) (d : nat) : T := match m_get (N.of_nat d) m with Some v => v | None => zero O end.
Definition mpol (m : mono T) (d : nat) : T := if (N.of_nat d =? mdeg m)%N then mcoef m else zero O.

End Spec.

Section Struct.
Context {T : Type} (O : num T) (Z0 : is_zero O (zero O) = true).
Implicit Types p q : nat -> T.
Notation dp := (dpol O). Notation sp := (spol O). Notation mp := (mpol O).

Lemma same_strip l : same_coefs O (dp (strip O l)) (dp l).
Proof.
  intros d. pose proof (strip_cf (zero O) O l d) as H. unfold dpol. destruct (Nat.ltb_spec d (length (strip O l))) as [Hd|Hd]; [left; exact H|].
  right. rewrite (cf_overflow _ (strip O l)) by exact Hd. split; [exact Z0|].
  destruct (Nat.ltb_spec d (length l)); [auto|]. rewrite cf_overflow by assumption. exact Z0.
Qed.

Lemma same_zero p q d : same_coefs O p q -> is_zero O (p d) = is_zero O (q d).
Proof. intros H. destruct (H d) as [->|[-> ->]]; reflexivity. Qed.

Lemma has_degree_same p q g : same_coefs O p q -> has_degree O p g -> has_degree O q g.
Proof.
  intros H. destruct g as [|n]; cbn.
  - intros K d. rewrite <- (same_zero p q d H). apply K.
  - intros [K1 K2]. split; [rewrite <- (same_zero p q _ H); exact K1|]. intros d Hd. rewrite <- (same_zero p q d H). auto.
Qed.

Lemma dense_has_degree l : has_degree O (dp l) (dense_degree O l).
Proof.
  apply (has_degree_same (dp (strip O l))); [apply same_strip|]. rewrite dense_degree_strip.
  destruct (strip_split O l) as (pre & _ & _ & _ & Hc). destruct (strip O l) as [|c r]; cbn [has_degree].
  - intros d. unfold dpol. rewrite cf_nil. exact Z0.
  - unfold dpol, len. rewrite Nat2N.id. split; [rewrite cf_cons, Nat.eqb_refl; exact Hc|].
    intros d Hd. rewrite cf_overflow by (cbn; lia). exact Z0.
Qed.

Lemma enum_lists deg l i : l = [] \/ (N.to_nat deg + 1 = i + length l)%nat ->
  exists ts, enum_terms O deg i l = Ok ts /\ lists_of O (dp l) ts /\ Forall (fun t => (snd t < len l)%N) ts.
Proof.
  revert i. induction l as [|c l IH]; intros i H; cbn [enum_terms].
  - exists []. split; [reflexivity|]. split; [|constructor]. split; [constructor|]. intros c d. unfold dpol. rewrite cf_nil. split; [intros []|].
    intros [-> K]. congruence.
  - destruct H as [H|H]; [discriminate|]. cbn in H. destruct (IH (S i)) as (ts & E & (Hs & Hl) & Hb).
    { destruct l as [|c' l']; [left; reflexivity|right; cbn in *; lia]. }
    rewrite E. destruct (is_zero O c) eqn:Ec.
    + exists ts. split; [reflexivity|]. split.
      * split; [exact Hs|]. intros c' d. rewrite Hl. unfold dpol. rewrite cf_cons. destruct (Nat.eqb_spec (N.to_nat d) (length l)) as [->|]; [|reflexivity].
        rewrite cf_overflow by lia. split; intros [-> K]; congruence.
      * eapply Forall_impl; [|exact Hb]. cbn. unfold len. cbn. lia.
    + rewrite usub_le by lia. cbn [bind]. assert (Hk : (deg - N.of_nat i = len l)%N) by (unfold len; lia). rewrite Hk.
      eexists. split; [reflexivity|]. split.
      * split; [constructor; [exact Hs|]; eapply Forall_impl; [|exact Hb]; cbn; lia|].
        intros c' d. cbn [In]. rewrite Hl. unfold dpol. rewrite cf_cons. destruct (Nat.eqb_spec (N.to_nat d) (length l)) as [Hd|Hd].
        -- rewrite cf_overflow by lia. split; [intros [K|[-> K]]; [injection K as <- <-; auto|congruence]|].
           intros [-> K]. left. f_equal. unfold len. lia.
        -- split; [intros [K|K]; [injection K as <- <-; unfold len in Hd; lia|exact K]|auto].
      * constructor; [unfold len; cbn; lia|]. eapply Forall_impl; [|exact Hb]. cbn. unfold len. cbn. lia.
Qed.

Lemma lists_same p q ts : (forall d, is_zero O (p d) = false -> p d = q d) -> (forall d, is_zero O (q d) = false -> p d = q d) ->
  lists_of O p ts -> lists_of O q ts.
Proof.
  intros H1 H2 [Hs Hl]. split; [exact Hs|]. intros c d. rewrite Hl. split; intros [-> K]; [rewrite <- H1|rewrite H2]; auto.
Qed.

Lemma dense_lists l : exists ts, dense_terms O l = Ok ts /\ lists_of O (dp l) ts.
Proof.
  unfold dense_terms. rewrite slice_from_strip. cbn [bind].
  destruct (enum_lists (len (strip O l) - 1) (strip O l) 0) as (ts & E & Hl & _).
  { destruct (strip O l) as [|c r]; [left; reflexivity|right; unfold len; cbn [length]; lia]. }
  exists ts. split; [exact E|]. pose proof (same_strip l) as S.
  eapply lists_same; [| |exact Hl]; intros d K; destruct (S d) as [?|[? ?]]; congruence.
Qed.

Lemma dense_term_at l d : term_with_deg O l d = Ok (term_of O (dp l) d).
Proof.
  unfold term_with_deg, term_of, dpol. destruct (N.ltb_spec d (len l)) as [H|H].
  - rewrite !usub_le by lia. cbn [bind]. rewrite usub_le by lia. cbn [bind]. unfold index.
    destruct (N.ltb_spec (len l - d - 1) (len l)) as [_|]; [|lia].
    assert (E : nth_error l (N.to_nat (len l - d - 1)) = Some (cf (zero O) l (N.to_nat d))).
    { unfold cf, len in *. rewrite <- (rev_involutive l) at 1. rewrite nth_error_nth' with (d := zero O) by (rewrite rev_length, rev_length; lia).
      f_equal. rewrite rev_nth by (rewrite rev_length; lia). rewrite rev_length. f_equal. lia. }
    rewrite E. reflexivity.
  - rewrite cf_overflow by (unfold len in H; lia). rewrite Z0. reflexivity.
Qed.

(** Comparing two listings. *)
Definition look (d : N) (ts : list (T * N)) : option T := m_get d (map (fun t => (snd t, fst t)) ts).

Lemma look_bound d ts n : Forall (fun t => (snd t < n)%N) ts -> (n <= d)%N -> look d ts = None.
Proof.
  intros H Hd. apply m_get_notin. rewrite map_map. intros K. apply in_map_iff in K. destruct K as (t & E & K).
  rewrite Forall_forall in H. specialize (H t K). cbn in E. lia.
Qed.

Lemma terms_eqb_look ta tb :
  StronglySorted (fun a b => (snd b < snd a)%N) ta -> StronglySorted (fun a b => (snd b < snd a)%N) tb ->
  (terms_eqb O ta tb = true <-> forall d, match look d ta, look d tb with
     | Some c, Some c' => eqb O c c' = true | None, None => True | _, _ => False end).
Proof.
  intros Sa. revert tb. induction Sa as [|[c d] ta Sa IH Ha]; intros tb Sb; destruct Sb as [|[c' d'] tb Sb Hb]; cbn [terms_eqb].
  - split; [intros _ d; exact I|reflexivity].
  - split; [discriminate|]. intros H. specialize (H d'). unfold look in H. cbn in H. rewrite N.eqb_refl in H. destruct H.
  - split; [discriminate|]. intros H. specialize (H d). unfold look in H. cbn in H. rewrite N.eqb_refl in H. destruct H.
  - cbn [snd fst] in Ha, Hb.
    assert (LC : forall e k (x : T) ts, look e ((x, k) :: ts) = if (e =? k)%N then Some x else look e ts) by reflexivity.
    destruct (N.eqb_spec d d') as [<-|Hd].
    + rewrite andb_true_r, andb_true_iff, (IH tb Sb). split.
      * intros [H1 H2] e. rewrite !LC. destruct (N.eqb_spec e d); [exact H1|apply H2].
      * intros H. split.
        -- specialize (H d). rewrite !LC, N.eqb_refl in H. exact H.
        -- intros e. destruct (N.eqb_spec e d) as [->|He].
           ++ rewrite (look_bound d ta d Ha), (look_bound d tb d Hb) by lia. exact I.
           ++ specialize (H e). rewrite !LC in H. destruct (N.eqb_spec e d); [contradiction|exact H].
    + rewrite andb_false_r. split; [discriminate|]. intros H. exfalso. destruct (N.lt_trichotomy d d') as [K|[K|K]]; [|contradiction|].
      * specialize (H d'). rewrite !LC, N.eqb_refl in H. destruct (N.eqb_spec d' d); [lia|].
        rewrite (look_bound d' ta d Ha) in H by lia. exact H.
      * specialize (H d). rewrite !LC, N.eqb_refl in H. destruct (N.eqb_spec d d'); [lia|].
        rewrite (look_bound d tb d' Hb) in H by lia. exact H.
Qed.

Lemma lists_look p ts d : lists_of O p ts -> look d ts = if is_zero O (p (N.to_nat d)) then None else Some (p (N.to_nat d)).
Proof.
  intros [Hs Hl]. destruct (is_zero O (p (N.to_nat d))) eqn:E.
  - apply m_get_notin. rewrite map_map. intros K. apply in_map_iff in K. destruct K as ([c d'] & <- & K). cbn in E. apply Hl in K. destruct K; congruence.
  - destruct (look d ts) as [c|] eqn:L.
    + apply m_get_in in L. apply in_map_iff in L. destruct L as ([c' d'] & K1 & K2). injection K1 as -> ->. apply Hl in K2. f_equal. apply K2.
    + exfalso. apply m_get_notin in L. apply L. rewrite map_map. apply in_map_iff. exists (p (N.to_nat d), d). split; [reflexivity|]. apply Hl. auto.
Qed.

Lemma lists_eqb p q ta tb : lists_of O p ta -> lists_of O q tb -> (terms_eqb O ta tb = true <-> all_equal O p q).
Proof.
  intros Ha Hb. rewrite terms_eqb_look by (apply Ha || apply Hb). split.
  - intros H d. specialize (H (N.of_nat d)). rewrite (lists_look p ta _ Ha), (lists_look q tb _ Hb), Nat2N.id in H.
    destruct (is_zero O (p d)), (is_zero O (q d)); tauto.
  - intros H d. rewrite (lists_look p ta _ Ha), (lists_look q tb _ Hb). specialize (H (N.to_nat d)).
    destruct (is_zero O (p (N.to_nat d))), (is_zero O (q (N.to_nat d))); try exact I; destruct H as [[? ?]|(? & ? & ?)]; congruence.
Qed.

(** Shifts. *)
Lemma cf_extend l n d : cf (zero O) (l ++ repeat (zero O) n) d = if (d <? n)%nat then zero O else cf (zero O) l (d - n).
Proof. rewrite cf_app, repeat_length. destruct (d <? n)%nat; [apply cf_repeat|reflexivity]. Qed.

Lemma cf_firstn l n d : (n <= length l)%nat -> cf (zero O) (firstn (length l - n) l) d = cf (zero O) l (d + n).
Proof.
  intros H. rewrite <- (firstn_skipn (length l - n) l) at 3. rewrite cf_app, skipn_length.
  destruct (Nat.ltb_spec (d + n) (length l - (length l - n))); [lia|]. f_equal. lia.
Qed.

(** The coefficients moved up by [k], or down for negative [k]. *)
Definition moved (k : Z) p : nat -> T := fun d => if (Z.of_nat d <? k)%Z then zero O else p (Z.to_nat (Z.of_nat d - k)).
Definition signed_by (left : bool) (k : Z) : Z := if left then k else (- k)%Z.

Lemma shift_assign_moved f left l k r : (0 <= k)%Z -> dense_shift_assign O (S f) left l k = Ok r ->
  same_coefs O (dp r) (moved (signed_by left k) (dp l)).
Proof.
  intros Hk H. cbn [dense_shift_assign] in H. destruct (Z.ltb_spec k 0); [lia|]. unfold moved, signed_by, dpol. destruct left.
  - apply extend_zeros_ok in H. destruct H as [-> _]. intros d. left. rewrite cf_extend.
    destruct (Nat.ltb_spec d (N.to_nat (Z.to_N k))), (Z.ltb_spec (Z.of_nat d) k); try lia; [reflexivity|]. f_equal. lia.
  - intros d. left. destruct (Z.ltb_spec (Z.of_nat d) (- k)); [lia|]. destruct (N.ltb_spec (len l) (Z.to_N k)) as [Hl|Hl].
    + injection H as <-. rewrite cf_nil, cf_overflow by (unfold len in Hl; lia). reflexivity.
    + unfold slice in H. simpl Nat.leb in H. cbn [andb] in H.
      destruct (Nat.leb_spec (length l - N.to_nat (Z.to_N k)) (length l)); [|lia]. injection H as <-.
      rewrite Nat.sub_0_r. cbn [skipn]. rewrite Z_N_nat, cf_firstn by (unfold len in Hl; lia). f_equal. lia.
Qed.

Lemma moved_same k p q : same_coefs O p q -> same_coefs O (moved k p) (moved k q).
Proof. intros H d. unfold moved. destruct (Z.of_nat d <? k)%Z; [left; reflexivity|apply H]. Qed.
Lemma same_trans p q r : same_coefs O p q -> same_coefs O q r -> same_coefs O p r.
Proof. intros H1 H2 d. destruct (H1 d) as [->|[A B]]; [apply H2|]. destruct (H2 d) as [<-|[C D]]; right; auto. Qed.

Lemma shift_moved f left l k r : (0 <= k)%Z -> dense_shift O (S f) left l k = Ok r ->
  same_coefs O (dp r) (moved (signed_by left k) (dp l)).
Proof.
  intros Hk H. cbn [dense_shift] in H. destruct (Z.ltb_spec k 0); [lia|]. destruct left.
  - rewrite slice_from_strip in H. cbn [bind] in H. eapply same_trans; [|apply moved_same, same_strip].
    apply (shift_assign_moved 0 true (strip O l) k r Hk). cbn [dense_shift_assign]. destruct (Z.ltb_spec k 0); [lia|exact H].
  - destruct (N.ltb_spec (len l) (Z.to_N k)) as [Hl|Hl].
    { apply (shift_assign_moved 0 false l k r Hk). cbn [dense_shift_assign]. destruct (Z.ltb_spec k 0); [lia|].
      destruct (N.ltb_spec (len l) (Z.to_N k)); [exact H|lia]. }
    unfold slice in H. rewrite first_nonzero_index_fnz, Z_N_nat in H. unfold len in Hl.
    destruct (Nat.leb_spec (fnz O l) (length l - Z.to_nat k)) as [Hf|Hf]; [|discriminate].
    destruct (Nat.leb_spec (length l - Z.to_nat k) (length l)); [|lia]. cbn [andb] in H. injection H as <-.
    destruct (strip_split O l) as (pre & E & Hp & Hz & _). fold (strip O l).
    intros d. unfold moved, signed_by. destruct (Z.ltb_spec (Z.of_nat d) (- k)); [lia|].
    replace (Z.to_nat (Z.of_nat d - - k)) with (d + Z.to_nat k)%nat by lia. unfold dpol. rewrite <- cf_firstn by lia.
    set (m := (length l - Z.to_nat k)%nat) in *. clearbody m.
    assert (Ep : firstn m l = pre ++ firstn (m - fnz O l) (strip O l)).
    { rewrite E at 1. rewrite firstn_app, Hp. rewrite firstn_all2 by lia. reflexivity. }
    rewrite Ep, cf_app. destruct (Nat.ltb_spec d (length (firstn (m - fnz O l) (strip O l)))); [left; reflexivity|]. right.
    rewrite cf_overflow by assumption. split; [exact Z0|].
    apply (proj1 (cf_Forall (zero O) (fun x => is_zero O x = true) pre Z0)). exact Hz.
Qed.

Lemma dense_shifts f left l k r : i32_shift k -> dense_shift O (S (S f)) left l k = Ok r \/ dense_shift_assign O (S (S f)) left l k = Ok r ->
  same_coefs O (dp r) (moved (signed_by left k) (dp l)).
Proof.
  intros Hk H. destruct (Z.ltb_spec k 0) as [Hn|Hn].
  2:{ destruct H as [H|H]; [apply (shift_moved _ _ _ _ _ Hn H)|apply (shift_assign_moved _ _ _ _ _ Hn H)]. }
  assert (E : (k <? 0)%Z = true) by lia. remember (S f) as f'. cbn [dense_shift dense_shift_assign] in H. rewrite E in H.
  rewrite (neg_i32_ok O) in H by exact Hk. cbn [bind] in H. subst f'.
  replace (signed_by left k) with (signed_by (negb left) (- k)) by (destruct left; cbn; lia).
  destruct H as [H|H]; [eapply shift_moved|eapply shift_assign_moved]; try eassumption; lia.
Qed.

(** Sparse polynomials. *)
Lemma spol_get m d : sp m (N.to_nat d) = match m_get d m with Some v => v | None => zero O end.
Proof. unfold spol. rewrite N2Nat.id. reflexivity. Qed.

Lemma spol_zero m d : (forall v, m_get (N.of_nat d) m = Some v -> is_zero O v = true) -> is_zero O (sp m d) = true.
Proof. unfold spol. destruct (m_get (N.of_nat d) m); auto. Qed.

Lemma sparse_has_degree m : swf m -> has_degree O (sp m) (sparse_degree O m).
Proof.
  intros [Hs _]. pose proof (sparse_degree_split O m Hs) as H. destruct (sparse_degree O m) as [|n]; cbn [has_degree].
  - intros d. apply spol_zero. intros v Hv. apply m_get_in in Hv. rewrite Forall_forall in H. apply (H _ Hv).
  - destruct H as (m1 & c & m2 & -> & Hc & H2). split.
    + rewrite spol_get, (sorted_in_get _ n c Hs) by (apply in_app_iff; right; left; reflexivity). exact Hc.
    + intros d Hd. apply spol_zero. intros v Hv. apply m_get_in in Hv. apply in_app_iff in Hv.
      destruct Hv as [Hv|[Hv|Hv]].
      * apply sorted_app_inv in Hs. destruct Hs as (_ & _ & Hs). specialize (Hs (N.of_nat d, v) (n, c) Hv (or_introl eq_refl)).
        unfold key_lt in Hs. cbn in Hs. lia.
      * injection Hv as -> <-. lia.
      * rewrite Forall_forall in H2. apply (H2 _ Hv).
Qed.

Lemma sparse_lists m : swf m -> lists_of O (sp m) (sparse_terms O m).
Proof.
  intros [Hs _]. unfold sparse_terms. set (nz := fun kv : N * T => negb (is_zero O (snd kv))). split.
  - pose proof (filter_sorted _ nz _ (sorted_rev _ _ Hs)) as H. revert H. generalize (filter nz (rev m)) as r.
    induction 1 as [|x r Hx IHr Hf]; cbn; constructor; auto. rewrite Forall_forall in *. intros y Hy.
    apply in_map_iff in Hy. destruct Hy as (z & <- & Hz). apply (Hf z Hz).
  - intros c d. rewrite in_map_iff, spol_get. split.
    + intros ([k v] & E & H). injection E as <- <-. apply filter_In in H. destruct H as [H1 H2]. apply in_rev in H1.
      rewrite (sorted_in_get _ _ _ Hs H1). unfold nz in H2. cbn in H2. split; [reflexivity|]. destruct (is_zero O v); [discriminate|reflexivity].
    + intros [-> H]. destruct (m_get d m) as [v|] eqn:E; [|congruence]. exists (d, v). split; [reflexivity|]. apply filter_In.
      split; [apply in_rev; rewrite rev_involutive; apply m_get_in, E|]. unfold nz. cbn. rewrite H. reflexivity.
Qed.

Lemma sparse_term_at m d : sparse_term_with_degree O m d = term_of O (sp m) d.
Proof.
  unfold sparse_term_with_degree, term_of, term_new. rewrite spol_get. destruct (m_get d m); [reflexivity|]. rewrite Z0. reflexivity.
Qed.

Lemma from_vec_get l : forall deg i m, (l = [] \/ N.to_nat deg + 1 = i + length l)%nat ->
  exists r, from_vec_loop O deg i l m = Ok r /\
  forall d, m_get d r = if (N.to_nat d <? length l)%nat
                        then (if is_zero O (dp l (N.to_nat d)) then m_get d m else Some (dp l (N.to_nat d))) else m_get d m.
Proof.
  induction l as [|v l IH]; intros deg i m H; cbn [from_vec_loop length].
  - exists m. split; [reflexivity|]. intros d. destruct (N.to_nat d <? 0)%nat eqn:E; [lia|reflexivity].
  - destruct H as [H|H]; [discriminate|]. cbn [length] in H.
    assert (H' : (l = [] \/ N.to_nat deg + 1 = S i + length l)%nat) by (destruct l as [|c' l']; [left; reflexivity|right; cbn [length] in *; lia]).
    assert (G : forall d, dp (v :: l) d = if (d =? length l)%nat then v else dp l d) by (intros d; apply cf_cons).
    destruct (is_zero O v) eqn:Ev.
    + destruct (IH deg (S i) m H') as (r & E & G'). exists r. split; [exact E|]. intros d. rewrite G', G.
      destruct (Nat.eqb_spec (N.to_nat d) (length l)) as [K|K].
      * rewrite Ev. destruct (Nat.ltb_spec (N.to_nat d) (length l)), (Nat.ltb_spec (N.to_nat d) (S (length l))); try lia; reflexivity.
      * destruct (Nat.ltb_spec (N.to_nat d) (length l)), (Nat.ltb_spec (N.to_nat d) (S (length l))); try lia; reflexivity.
    + rewrite usub_le by lia. cbn [bind]. destruct (IH deg (S i) (m_insert (deg - N.of_nat i) v m) H') as (r & E & G').
      exists r. split; [exact E|]. intros d. rewrite G', G, m_get_insert.
      destruct (Nat.eqb_spec (N.to_nat d) (length l)) as [K|K].
      * rewrite Ev. destruct (N.eqb_spec d (deg - N.of_nat i)); [|lia].
        destruct (Nat.ltb_spec (N.to_nat d) (length l)), (Nat.ltb_spec (N.to_nat d) (S (length l))); try lia; reflexivity.
      * destruct (N.eqb_spec d (deg - N.of_nat i)); [lia|].
        destruct (Nat.ltb_spec (N.to_nat d) (length l)), (Nat.ltb_spec (N.to_nat d) (S (length l))); try lia; reflexivity.
Qed.

Lemma sparse_from_vec_same l : exists m, sparse_from_vec O l = Ok m /\ same_coefs O (sp m) (dp l).
Proof.
  unfold sparse_from_vec. destruct l as [|c l].
  - exists []. split; [reflexivity|]. intros d. left. unfold dpol. rewrite cf_nil. reflexivity.
  - remember (c :: l) as l' eqn:El. rewrite usub_le by (subst l'; unfold len; cbn [length]; lia). cbn [bind].
    destruct (from_vec_get l' (len l' - 1) 0 []) as (r & E & G); [right; subst l'; unfold len; cbn [length]; lia|].
    exists r. split; [exact E|]. intros d. unfold spol. rewrite G, Nat2N.id. cbn [m_get].
    destruct (Nat.ltb_spec d (length l')) as [K|K].
    + destruct (is_zero O (dp l' d)) eqn:Z; [right; auto|left; reflexivity].
    + left. unfold dpol. rewrite cf_overflow by exact K. reflexivity.
Qed.

Lemma somes_get (g : N * T -> res (option (N * T))) m os d v :
  mapM g m = Ok os -> In (d, v) (somes os) <-> exists kv, In kv m /\ g kv = Ok (Some (d, v)).
Proof.
  revert os. induction m as [|kv m IH]; intros os H; cbn in H; inv_ok.
  - split; [intros []|intros (kv & [] & _)].
  - split.
    + intros Hi. assert (Hc : (v0 = Some (d, v)) \/ In (d, v) (somes v1)) by (destruct v0; cbn in Hi; [destruct Hi as [->|]; auto|auto]).
      destruct Hc as [->|Hc]; [exists kv; split; [left; reflexivity|exact E]|]. apply (IH _ E0) in Hc. destruct Hc as (a & A & B). exists a. split; [right; exact A|exact B].
    + intros (a & [<-|A] & B).
      * rewrite E in B. injection B as ->. left. reflexivity.
      * assert (Hi : In (d, v) (somes v1)) by (apply (IH _ E0); eauto). destruct v0; cbn; auto.
Qed.

Lemma shift_get_l m n r : swf m -> shl_ok O m n -> foldM (rebuild_step (shl_f O n)) [] m = Ok r ->
  swf r /\ forall d, m_get d r = if (d <? n)%N then None else m_get (d - n) m.
Proof.
  intros Hm Hs H. apply rebuild_nil in H; [|exact Hm|apply shl_mono, Hs]. destruct H as (os & E & ->).
  assert (W : swf (somes os)).
  { eapply swf_somes; [exact Hm|apply shl_mono, Hs| |exact E]. intros a [k v] Ha Hf. apply (shl_f_key O m n a k v Hs Ha) in Hf. apply Hf. }
  split; [exact W|]. intros d. destruct (m_get d (somes os)) as [v|] eqn:G.
  - apply m_get_in in G. apply (somes_get _ _ _ _ _ E) in G. destruct G as ([k w] & Hi & Hf).
    apply (shl_f_key O m n (k, w) d v Hs Hi) in Hf. destruct Hf as (-> & -> & _). cbn [fst snd].
    destruct (N.ltb_spec (k + n) n); [lia|]. replace (k + n - n)%N with k by lia. symmetry. apply sorted_in_get; [apply Hm|exact Hi].
  - destruct (N.ltb_spec d n); [reflexivity|]. destruct (m_get (d - n) m) as [v|] eqn:K; [|reflexivity]. exfalso.
    apply m_get_in in K. apply m_get_notin in G. apply G. apply in_map_iff.
    assert (F : exists o, shl_f O n ((d - n)%N, v) = Ok o).
    { clear -E K. revert os E. induction m as [|a m IH]; intros os E; [destruct K|]. cbn in E. inv_ok. destruct K as [->|K]; [eauto|eapply IH; eauto]. }
    destruct F as (o & F). assert (Fo := F). unfold shl_f in Fo. inv_ok. rename v0 into d0.
    assert (Hk := shl_f_key O m n _ _ _ Hs K F). cbn in Hk. destruct Hk as (Hk & _).
    exists (d, v). split; [reflexivity|]. apply (somes_get _ _ _ _ _ E). exists ((d - n)%N, v). split; [exact K|]. rewrite F. repeat f_equal. lia.
Qed.

Lemma shift_get_r m n r : swf m -> foldM (rebuild_step (shr_f O n)) [] m = Ok r ->
  swf r /\ forall d, m_get d r = m_get (d + n) m.
Proof.
  intros Hm H. apply rebuild_nil in H; [|exact Hm|apply shr_mono]. destruct H as (os & E & ->).
  assert (W : swf (somes os)).
  { eapply swf_somes; [exact Hm|apply shr_mono| |exact E]. intros a [k v] Ha Hf. apply shr_f_key in Hf.
    destruct Hm as [_ Hm]. rewrite Forall_forall in Hm. specialize (Hm _ Ha). cbn in *. lia. }
  split; [exact W|]. intros d. destruct (m_get d (somes os)) as [v|] eqn:G.
  - apply m_get_in in G. apply (somes_get _ _ _ _ _ E) in G. destruct G as ([k w] & Hi & Hf).
    apply shr_f_key in Hf. cbn in Hf. destruct Hf as (<- & ->). symmetry. apply sorted_in_get; [apply Hm|exact Hi].
  - destruct (m_get (d + n) m) as [v|] eqn:K; [|reflexivity]. exfalso.
    apply m_get_in in K. apply m_get_notin in G. apply G. apply in_map_iff. exists (d, v). split; [reflexivity|].
    apply (somes_get _ _ _ _ _ E). exists ((d + n)%N, v). split; [exact K|]. unfold shr_f. cbn [fst snd].
    destruct (N.leb_spec n (d + n)); [|lia]. rewrite usub_le by lia. cbn [bind]. repeat f_equal. lia.
Qed.

Lemma sparse_shifts f left m k r : swf m -> i32_shift k -> shift_ok O m left k -> sparse_shift O (S (S f)) left m k = Ok r ->
  swf r /\ forall d, sp r d = moved (signed_by left k) (sp m) d.
Proof.
  assert (P : forall f left k r, swf m -> (0 <= k)%Z -> shift_ok O m left k -> sparse_shift O (S f) left m k = Ok r ->
    swf r /\ forall d, sp r d = moved (signed_by left k) (sp m) d).
  { clear f left k r. intros f left k r Hm Hk Hs H. destruct left.
    - rewrite sparse_shift_nonneg_l in H by exact Hk. destruct (shift_get_l m _ r Hm Hs H) as [W G]. split; [exact W|].
      intros d. unfold spol, moved, signed_by. rewrite G. destruct (N.ltb_spec (N.of_nat d) (Z.to_N k)), (Z.ltb_spec (Z.of_nat d) k); try lia; [reflexivity|].
      replace (N.of_nat (Z.to_nat (Z.of_nat d - k))) with (N.of_nat d - Z.to_N k)%N by lia. reflexivity.
    - rewrite sparse_shift_nonneg_r in H by exact Hk. destruct (shift_get_r m _ r Hm H) as [W G]. split; [exact W|].
      intros d. unfold spol, moved, signed_by. rewrite G. destruct (Z.ltb_spec (Z.of_nat d) (- k)); [lia|].
      replace (N.of_nat (Z.to_nat (Z.of_nat d - - k))) with (N.of_nat d + Z.to_N k)%N by lia. reflexivity. }
  intros Hm Hk Hs H. destruct (Z.ltb_spec k 0) as [Hn|Hn]; [|eapply P; eassumption].
  rewrite sparse_shift_neg in H by assumption. replace (signed_by left k) with (signed_by (negb left) (- k)) by (destruct left; cbn; lia).
  eapply P; [exact Hm|lia| |exact H]. unfold shift_ok in *. destruct left; cbn [negb]; [|exact Hs].
  replace (- - k)%Z with k by lia. exact Hs.
Qed.

(** == is symmetric and agrees with is_zero(). *)
Definition eq_zero : Prop := (forall a b, eqb O a b = eqb O b a) /\
  (forall a b, is_zero O a = true -> is_zero O b = true -> eqb O a b = true) /\ (forall a b, eqb O a b = true -> is_zero O a = is_zero O b).

Lemma eqb_equal a b : eq_zero -> (eqb O a b = true <->
  is_zero O a = true /\ is_zero O b = true \/ is_zero O a = false /\ is_zero O b = false /\ eqb O a b = true).
Proof.
  intros (_ & E1 & E2). split.
  - intros H. pose proof (E2 a b H) as K. destruct (is_zero O b); rewrite K; auto.
  - intros [[Ha Hb]|(_ & _ & H)]; auto.
Qed.

Lemma sparse_eq_all a b : eq_zero -> swf a -> swf b -> (sparse_eq O a b = true <-> all_equal O (sp a) (sp b)).
Proof.
  intros EZ [Ha _] [Hb _]. unfold sparse_eq. rewrite andb_true_iff, !forallb_forall. split.
  - intros [H1 H2] d. unfold spol. destruct (m_get (N.of_nat d) a) as [x|] eqn:Ea.
    + specialize (H1 _ (m_get_in _ _ _ Ea)). cbn [fst snd] in H1. destruct (m_get (N.of_nat d) b) as [y|]; [apply (eqb_equal x y EZ), H1|auto].
    + destruct (m_get (N.of_nat d) b) as [y|] eqn:Eb; [|auto].
      specialize (H2 _ (m_get_in _ _ _ Eb)). cbn [fst snd] in H2. rewrite Ea in H2. auto.
  - intros H. split; intros [k x] Hi; cbn [fst snd]; specialize (H (N.to_nat k)); rewrite !spol_get in H.
    + rewrite (sorted_in_get _ _ _ Ha Hi) in H. destruct (m_get k b); [apply (eqb_equal _ _ EZ), H|].
      destruct H as [[? _]|(_ & ? & _)]; [assumption|congruence].
    + rewrite (sorted_in_get _ _ _ Hb Hi) in H. destruct (m_get k a) as [y|].
      * apply (eqb_equal _ _ EZ) in H. rewrite (proj1 EZ). exact H.
      * destruct H as [[_ ?]|(? & _)]; [assumption|congruence].
Qed.

Lemma dense_eq_all a b : exists r, dense_eq O a b = Ok r /\ (r = true <-> all_equal O (dp a) (dp b)).
Proof.
  unfold dense_eq. destruct (dense_lists a) as (ta & -> & Ha). destruct (dense_lists b) as (tb & -> & Hb). cbn [bind].
  eexists. split; [reflexivity|]. apply lists_eqb; assumption.
Qed.

Lemma arr_eq_all a b : eq_zero -> length a = length b -> (arr_eq O a b = true <-> all_equal O (dp a) (dp b)).
Proof.
  intros EZ Hl.
  assert (G : arr_eq O a b = true <-> forall d, (d < length a)%nat -> eqb O (dp a d) (dp b d) = true).
  { revert b Hl. induction a as [|x a IH]; intros [|y b] Hl; try discriminate Hl; cbn [arr_eq].
    - split; [intros _ d Hd; cbn in Hd; lia|reflexivity].
    - cbn in Hl. injection Hl as Hl. rewrite andb_true_iff, (IH b Hl). cbn [length]. unfold dpol. split.
      + intros [H1 H2] d Hd. rewrite !cf_cons, <- Hl. destruct (Nat.eqb_spec d (length a)); [exact H1|]. apply H2. lia.
      + intros H. split.
        * specialize (H (length a) ltac:(lia)). rewrite !cf_cons, <- Hl, Nat.eqb_refl in H. exact H.
        * intros d Hd. specialize (H d ltac:(lia)). rewrite !cf_cons, <- Hl in H. destruct (Nat.eqb_spec d (length a)); [lia|exact H]. }
  rewrite G. split.
  - intros H d. destruct (Nat.ltb_spec d (length a)) as [K|K]; [apply (eqb_equal _ _ EZ), H, K|].
    left. unfold dpol. rewrite !cf_overflow by lia. auto.
  - intros H d _. apply (eqb_equal _ _ EZ), H.
Qed.

Lemma mono_eq_all a b : eq_zero -> (mono_eq O a b = true <-> all_equal O (mp a) (mp b)).
Proof.
  intros EZ. destruct a as [x i], b as [y j]. unfold mono_eq, mono_as_term, term_new, mpol. cbn [mcoef mdeg].
  destruct (is_zero O x) eqn:Ex, (is_zero O y) eqn:Ey; cbn [term_eqb].
  - split; [intros _ d; left; split; destruct (_ =? _)%N; assumption|reflexivity].
  - split; [discriminate|]. intros H. specialize (H (N.to_nat j)). cbv beta in H; rewrite !N2Nat.id, N.eqb_refl in H.
    destruct (N.eqb_spec j i); destruct H as [[? ?]|(? & ? & ?)]; congruence.
  - split; [discriminate|]. intros H. specialize (H (N.to_nat i)). cbv beta in H; rewrite !N2Nat.id, N.eqb_refl in H.
    destruct (N.eqb_spec i j); destruct H as [[? ?]|(? & ? & ?)]; congruence.
  - rewrite andb_true_iff. split.
    + intros [H1 H2]. apply N.eqb_eq in H2. subst j. intros d. destruct (N.eqb_spec (N.of_nat d) i); [right|left]; auto.
    + intros H. specialize (H (N.to_nat i)). cbv beta in H; rewrite !N2Nat.id, N.eqb_refl in H.
      destruct (N.eqb_spec i j); destruct H as [[? ?]|(? & ? & ?)]; try congruence. auto.
Qed.

Lemma bino_eq_arr a b : bino_eq O a b = arr_eq O (bino_list a) (bino_list b).
Proof. unfold bino_eq. cbn. rewrite andb_true_r. reflexivity. Qed.
Lemma trino_eq_arr a b : trino_eq O a b = arr_eq O (trino_list a) (trino_list b).
Proof. unfold trino_eq. cbn. rewrite andb_true_r. reflexivity. Qed.

Lemma bino_degree_list b : bino_degree O b = dense_degree O (bino_list b).
Proof. rewrite dense_degree_strip. unfold bino_degree, strip, bino_list. cbn. destruct (is_zero O (bc0 b)), (is_zero O (bc1 b)); reflexivity. Qed.
Lemma trino_degree_list b : trino_degree O b = dense_degree O (trino_list b).
Proof.
  rewrite dense_degree_strip. unfold trino_degree, strip, trino_list. cbn.
  destruct (is_zero O (tc0 b)), (is_zero O (tc1 b)), (is_zero O (tc2 b)); reflexivity.
Qed.

End Struct.

(** ** Theorems: for every coefficient type whose zero() is_zero(), whatever its arithmetic. *)

(** degree() *)
Theorem C72_degree : forall T (O : num T), is_zero O (zero O) = true ->
  (forall l, has_degree O (dpol O l) (dense_degree O l)) /\
  (forall m, swf m -> has_degree O (spol O m) (sparse_degree O m)) /\
  (forall m, has_degree O (mpol O m) (mono_degree O m)) /\
  (forall b, has_degree O (dpol O (bino_list b)) (bino_degree O b)) /\
  (forall b, has_degree O (dpol O (trino_list b)) (trino_degree O b)) /\
  (forall a, has_degree O (dpol O a) (arr_degree O a)).
Proof.
  intros T O Z0. split; [|split; [|split; [|split; [|split]]]].
  - apply (dense_has_degree O Z0). - apply (sparse_has_degree O Z0).
  - intros [c i]. unfold mono_degree, mpol. cbn [mcoef mdeg]. destruct (is_zero O c) eqn:E; cbn [has_degree].
    + intros d. destruct (_ =? _)%N; assumption.
    + rewrite N2Nat.id, N.eqb_refl. split; [exact E|]. intros d Hd. destruct (N.eqb_spec (N.of_nat d) i); [lia|exact Z0].
  - intros b. rewrite bino_degree_list. apply (dense_has_degree O Z0). - intros b. rewrite trino_degree_list. apply (dense_has_degree O Z0).
  - apply (dense_has_degree O Z0).
Qed.

(** the ordered terms *)
Theorem C72_terms : forall T (O : num T), is_zero O (zero O) = true ->
  (forall l, exists ts, dense_terms O l = Ok ts /\ lists_of O (dpol O l) ts) /\
  (forall m, swf m -> lists_of O (spol O m) (sparse_terms O m)) /\
  (forall m, lists_of O (mpol O m) (mono_terms O m)) /\
  (forall b, exists ts, bino_terms O b = Ok ts /\ lists_of O (dpol O (bino_list b)) ts) /\
  (forall b, exists ts, trino_terms O b = Ok ts /\ lists_of O (dpol O (trino_list b)) ts).
Proof.
  intros T O Z0. split; [|split; [|split; [|split]]].
  - apply (dense_lists O Z0). - apply (sparse_lists O Z0).
  - intros [c i]. unfold mono_terms, mpol. cbn [mcoef mdeg]. destruct (is_zero O c) eqn:E.
    + split; [constructor|]. intros c' d. rewrite N2Nat.id. split; [intros []|]. intros [-> K]. destruct (_ =? _)%N; congruence.
    + split; [repeat constructor|]. intros c' d. rewrite N2Nat.id. split.
      * intros [K|[]]. injection K as <- <-. rewrite N.eqb_refl. auto.
      * intros [K1 K]. destruct (N.eqb_spec d i) as [K2|]; [left; congruence|congruence].
  - intros b. destruct (enum_lists O Z0 1 (bino_list b) 0 (or_intror eq_refl)) as (ts & A & B & _). eauto.
  - intros b. destruct (enum_lists O Z0 2 (trino_list b) 0 (or_intror eq_refl)) as (ts & A & B & _). eauto.
Qed.

(** term_with_degree(d) *)
Theorem C72_coefficient : forall T (O : num T), is_zero O (zero O) = true -> forall d,
  (forall l, term_with_deg O l d = Ok (term_of O (dpol O l) d)) /\
  (forall m, sparse_term_with_degree O m d = term_of O (spol O m) d) /\
  (forall m, mono_term_with_degree O m d = term_of O (mpol O m) d) /\
  (forall b, bino_term_with_degree O b d = Ok (term_of O (dpol O (bino_list b)) d)) /\
  (forall b, trino_term_with_degree O b d = Ok (term_of O (dpol O (trino_list b)) d)) /\
  (forall a, arr_term_with_degree O a d = Ok (term_of O (dpol O a) d)).
Proof.
  intros T O Z0 d. split; [|split; [|split; [|split; [|split]]]].
  - intros l. apply (dense_term_at O Z0). - intros m. apply (sparse_term_at O Z0).
  - intros m. unfold mono_term_with_degree, term_of, mpol, term_new. rewrite N2Nat.id.
    destruct (N.eqb_spec d (mdeg m)) as [->|]; [reflexivity|]. rewrite Z0. reflexivity.
  - intros b. apply (dense_term_at O Z0). - intros b. apply (dense_term_at O Z0). - intros a. apply (dense_term_at O Z0).
Qed.

(** Polynomial::new, SparsePolynomial::from(Vec) and shifts keep the coefficients. *)
Theorem C72_coefficients_kept : forall T (O : num T), is_zero O (zero O) = true ->
  (forall l, exists r, dense_new O l = Ok r /\ same_coefs O (dpol O r) (dpol O l)) /\
  (forall l, exists m, sparse_from_vec O l = Ok m /\ same_coefs O (spol O m) (dpol O l)) /\
  (forall f left l k r, i32_shift k -> dense_shift O (S (S f)) left l k = Ok r \/ dense_shift_assign O (S (S f)) left l k = Ok r ->
     same_coefs O (dpol O r) (moved O (signed_by left k) (dpol O l))) /\
  (forall f left m k r, swf m -> i32_shift k -> shift_ok O m left k -> sparse_shift O (S (S f)) left m k = Ok r ->
     swf r /\ forall d, spol O r d = moved O (signed_by left k) (spol O m) d).
Proof.
  intros T O Z0. split; [|split; [|split]].
  - intros l. exists (strip O l). split; [apply dense_new_ok|apply (same_strip O Z0)].
  - apply (sparse_from_vec_same O Z0). - intros. eapply (dense_shifts O Z0); eassumption. - intros. eapply (sparse_shifts O); eassumption.
Qed.

(** == compares coefficient by coefficient. *)
Theorem C72_equality : forall T (O : num T), is_zero O (zero O) = true ->
  (forall a b, exists r, dense_eq O a b = Ok r /\ (r = true <-> all_equal O (dpol O a) (dpol O b))) /\
  (eq_zero O ->
   (forall a b, swf a -> swf b -> (sparse_eq O a b = true <-> all_equal O (spol O a) (spol O b))) /\
   (forall a b, mono_eq O a b = true <-> all_equal O (mpol O a) (mpol O b)) /\
   (forall a b, bino_eq O a b = true <-> all_equal O (dpol O (bino_list a)) (dpol O (bino_list b))) /\
   (forall a b, trino_eq O a b = true <-> all_equal O (dpol O (trino_list a)) (dpol O (trino_list b))) /\
   (forall a b, length a = length b -> (arr_eq O a b = true <-> all_equal O (dpol O a) (dpol O b)))).
Proof.
  intros T O Z0. split; [apply (dense_eq_all O Z0)|]. intros EZ. split; [|split; [|split; [|split]]].
  - intros a b. apply (sparse_eq_all O Z0 a b EZ). - intros a b. apply (mono_eq_all O Z0 a b EZ).
  - intros a b. rewrite bino_eq_arr. apply (arr_eq_all O Z0 _ _ EZ). reflexivity.
  - intros a b. rewrite trino_eq_arr. apply (arr_eq_all O Z0 _ _ EZ). reflexivity.
  - intros a b. apply (arr_eq_all O Z0 a b EZ).
Qed.

(** ** Floats *)

Lemma float_zero chk f powi : is_zero (float_num chk f powi) (zero (float_num chk f powi)) = true.
Proof. reflexivity. Qed.

Definition is_nan_f {f} (a : flt f) : bool := is_nan a.

Lemma feqb_iff f (a b : flt f) : feqb a b = true <->
  is_nan_f a = false /\ (a = b \/ feqb a (fzero f) = true /\ feqb b (fzero f) = true).
Proof.
  split.
  - intros H. destruct (is_finite a) eqn:Fa, (is_finite b) eqn:Fb.
    + split; [destruct a; try discriminate Fa; reflexivity|].
      unfold feqb in *. rewrite !Beqb_correct in * by (assumption || reflexivity).
      revert H. case Req_bool_spec; [intros E _|discriminate]. change (B2R (fzero f)) with 0%R.
      destruct (Req_bool_spec (B2R a) 0) as [Z|Z].
      * right. split; [reflexivity|]. apply Req_bool_true. congruence.
      * left. apply B2R_inj; [| |exact E]; [clear -Fa Z|rewrite E in Z; clear -Fb Z].
        -- destruct a; try discriminate Fa; [|reflexivity]. exfalso. apply Z. reflexivity.
        -- destruct b; try discriminate Fb; [|reflexivity]. exfalso. apply Z. reflexivity.
    + exfalso. destruct b as [s|s| |s m e K]; try discriminate Fb; destruct a as [s'|s'| |s' m' e' K']; try discriminate Fa; try (destruct s, s'; discriminate H); try destruct s; try destruct s'; discriminate H.
    + exfalso. destruct a as [s|s| |s m e K]; try discriminate Fa; destruct b as [s'|s'| |s' m' e' K']; try discriminate Fb; try (destruct s, s'; discriminate H); try destruct s; try destruct s'; discriminate H.
    + destruct a as [s|s| |s m e K]; try discriminate Fa; destruct b as [s'|s'| |s' m' e' K']; try discriminate Fb; try (destruct s; discriminate H); try (destruct s'; discriminate H); try discriminate H.
      split; [reflexivity|]. left. destruct s, s'; try discriminate H; reflexivity.
  - intros [N [<-|[H1 H2]]].
    + destruct a as [s|s| |s m e K]; try discriminate N.
      * reflexivity. * destruct s; reflexivity.
      * unfold feqb. rewrite Beqb_correct by reflexivity. apply Req_bool_true. reflexivity.
    + apply feqb_zero in H1, H2. destruct H1 as (s & ->), H2 as (t & ->). reflexivity.
Qed.

Lemma feqb_nonan f (a : flt f) : feqb a (fzero f) = true -> is_nan_f a = false.
Proof. intros H. apply feqb_zero in H. destruct H as (s & ->). reflexivity. Qed.

Lemma feqb_sym f (a b : flt f) : feqb a b = feqb b a.
Proof.
  assert (G : forall x y : flt f, feqb x y = true -> feqb y x = true).
  { intros x y H. apply feqb_iff in H. apply feqb_iff. destruct H as [H1 [<-|[H2 H3]]]; [auto|]. split; [apply feqb_nonan, H3|auto]. }
  destruct (feqb a b) eqn:E1, (feqb b a) eqn:E2; try reflexivity; [rewrite (G _ _ E1) in E2|rewrite (G _ _ E2) in E1]; discriminate.
Qed.

Lemma feqb_trans f (a b c : flt f) : feqb a b = true -> feqb b c = true -> feqb a c = true.
Proof.
  intros H1 H2. apply feqb_iff in H1, H2. apply feqb_iff. destruct H1 as [N1 H1], H2 as [N2 H2]. split; [exact N1|].
  destruct H1 as [->|[A B]]; [exact H2|]. destruct H2 as [<-|[C D]]; right; auto.
Qed.

Lemma float_eq_zero chk f powi : eq_zero (float_num chk f powi).
Proof.
  split; [intros a b; apply feqb_sym|]. cbn [eqb is_zero float_num]. split.
  - intros a b Ha Hb. apply feqb_iff. split; [apply feqb_nonan, Ha|auto].
  - intros a b H. apply feqb_iff in H. destruct H as [_ [->|[-> ->]]]; reflexivity.
Qed.

(** The hypotheses hold of f32 and f64, and there "equal" is IEEE ==: 0.0 equals -0.0 and NaN
    equals nothing. *)
Theorem C72_float : forall chk f powi, let O := float_num chk f powi in
  is_zero O (zero O) = true /\ eq_zero O /\
  forall p q, all_equal O p q <-> forall d, is_nan_f (p d) = false /\ (p d = q d \/ feqb (p d) (fzero f) = true /\ feqb (q d) (fzero f) = true).
Proof.
  intros chk f powi O. split; [reflexivity|]. split; [apply float_eq_zero|]. intros p q. unfold all_equal. split; intros H d; specialize (H d).
  - apply (eqb_equal O _ _ (float_eq_zero chk f powi)) in H. apply feqb_iff, H.
  - apply (eqb_equal O _ _ (float_eq_zero chk f powi)). apply feqb_iff, H.
Qed.

(** [NaN, -0.0, 1.0, -0.0]: degree 3, two terms, found at their degrees. *)
Example C72_case : let O := float_num true F64 (fun x _ => x) in let l := [B754_nan; B754_zero true; f_of_Z F64 1; B754_zero true] in
  dense_degree O l = Num 3 /\ dense_terms O l = Ok [(B754_nan, 3%N); (f_of_Z F64 1, 1%N)] /\
  term_with_deg O l 1 = Ok (TTerm (f_of_Z F64 1) 1) /\ term_with_deg O l 0 = Ok ZeroTerm /\
  dense_eq O [B754_zero true; f_of_Z F64 1; B754_zero true] [f_of_Z F64 1; B754_zero false] = Ok true.
Proof. repeat split. Qed.

(** ** C73 *)

Section Equivalence.
Context {T : Type} (O : num T) (E : eq_zero O) (Tr : forall a b c, eqb O a b = true -> eqb O b c = true -> eqb O a c = true).
Lemma all_equal_eqb (p q : nat -> T) : all_equal O p q <-> forall d, eqb O (p d) (q d) = true.
Proof. split; intros H d; apply (eqb_equal O _ _ E), H. Qed.
Lemma all_equal_sym (p q : nat -> T) : all_equal O p q -> all_equal O q p.
Proof. rewrite !all_equal_eqb. intros H d. rewrite (proj1 E). apply H. Qed.
Lemma all_equal_trans (p q r : nat -> T) : all_equal O p q -> all_equal O q r -> all_equal O p r.
Proof. rewrite !all_equal_eqb. intros H1 H2 d. eapply Tr; eauto. Qed.
End Equivalence.

Definition symmetric_on {A} (P : A -> Prop) (eq : A -> A -> res bool) : Prop := forall a b, P a -> P b -> eq a b = eq b a.
Definition transitive_on {A} (P : A -> Prop) (eq : A -> A -> res bool) : Prop :=
  forall a b c, P a -> P b -> P c -> eq a b = Ok true -> eq b c = Ok true -> eq a c = Ok true.
Definition reflexive_on {A} (P : A -> Prop) (eq : A -> A -> res bool) : Prop := forall a, P a -> eq a a = Ok true.

(** A comparison that decides [all_equal]. *)
Section Decides.
Context {T : Type} (O : num T) (E : eq_zero O) (Tr : forall a b c, eqb O a b = true -> eqb O b c = true -> eqb O a c = true).
Context {A : Type} (P : A -> Prop) (eq : A -> A -> res bool) (pol : A -> nat -> T).
Context (D : forall a b, P a -> P b -> exists r, eq a b = Ok r /\ (r = true <-> all_equal O (pol a) (pol b))).
Lemma decides_sym : symmetric_on P eq.
Proof.
  intros a b Ha Hb. destruct (D a b Ha Hb) as (r & E1 & H1), (D b a Hb Ha) as (s & E2 & H2). rewrite E1, E2. f_equal.
  destruct r, s; try reflexivity; exfalso.
  - assert (K : false = true) by (apply H2, (all_equal_sym O E), H1; reflexivity). discriminate.
  - assert (K : false = true) by (apply H1, (all_equal_sym O E), H2; reflexivity). discriminate.
Qed.
Lemma decides_trans : transitive_on P eq.
Proof.
  intros a b c Ha Hb Hc H1 H2. destruct (D a b Ha Hb) as (r & E1 & D1), (D b c Hb Hc) as (s & E2 & D2), (D a c Ha Hc) as (t & E3 & D3).
  rewrite E3. f_equal. apply D3. apply (all_equal_trans O E Tr _ (pol b)); [apply D1|apply D2]; congruence.
Qed.
Lemma decides_self a : P a -> (eq a a = Ok true <-> forall d, eqb O (pol a d) (pol a d) = true).
Proof.
  intros Ha. destruct (D a a Ha Ha) as (r & E1 & D1). rewrite E1, <- (all_equal_eqb O E), <- D1. split; [congruence|intros ->; reflexivity].
Qed.
End Decides.

Definition eqs_of {T} (O : num T) (Q : forall A (P : A -> Prop), (A -> A -> res bool) -> Prop) : Prop :=
  Q (list T) (fun _ => True) (dense_eq O) /\ Q (bmap T) swf (fun a b => Ok (sparse_eq O a b)) /\
  Q (mono T) (fun _ => True) (fun a b => Ok (mono_eq O a b)) /\ Q (bino T) (fun _ => True) (fun a b => Ok (bino_eq O a b)) /\
  Q (trino T) (fun _ => True) (fun a b => Ok (trino_eq O a b)) /\
  forall n, Q (list T) (fun a => length a = n) (fun a b => Ok (arr_eq O a b)).

Lemma eqs_decide T (O : num T) (Z0 : is_zero O (zero O) = true) (E : eq_zero O) (Q : forall A (P : A -> Prop), (A -> A -> res bool) -> Prop) :
  (forall A (P : A -> Prop) eq (pol : A -> nat -> T), (forall a b, P a -> P b -> exists r, eq a b = Ok r /\ (r = true <-> all_equal O (pol a) (pol b))) -> Q A P eq) ->
  eqs_of O Q.
Proof.
  intros H. destruct (C72_equality T O Z0) as (H1 & H2). destruct (H2 E) as (H3 & H4 & H5 & H6 & H7). split; [|split; [|split; [|split; [|split]]]].
  - apply (H _ _ _ (dpol O)). intros a b _ _. apply H1.
  - apply (H _ _ _ (spol O)). intros a b Ha Hb. eauto.
  - apply (H _ _ _ (mpol O)). intros a b _ _. eauto.
  - apply (H _ _ _ (fun b => dpol O (bino_list b))). intros a b _ _. eauto.
  - apply (H _ _ _ (fun b => dpol O (trino_list b))). intros a b _ _. eauto.
  - intros n. apply (H _ _ _ (dpol O)). intros a b Ha Hb. eexists. split; [reflexivity|]. apply H7. congruence.
Qed.

(** == on polynomials of every type is symmetric, transitive and reflexive as == on coefficients is. *)
Theorem C73_equivalence : forall T (O : num T), is_zero O (zero O) = true -> eq_zero O ->
  (forall a b c, eqb O a b = true -> eqb O b c = true -> eqb O a c = true) ->
  eqs_of O (@symmetric_on) /\ eqs_of O (@transitive_on) /\ ((forall a, eqb O a a = true) -> eqs_of O (@reflexive_on)).
Proof.
  intros T O Z0 E Tr. split; [|split; [|intros Rf]]; apply (eqs_decide T O Z0 E).
  - intros A P eq pol D. apply (decides_sym O E P eq pol D).
  - intros A P eq pol D. apply (decides_trans O E Tr P eq pol D).
  - intros A P eq pol D a Ha. apply (decides_self O E P eq pol D a Ha). intros d. apply Rf.
Qed.

(** Integers. *)
Theorem C73_int : forall chk t, let O := int_num chk t in
  eqs_of O (@symmetric_on) /\ eqs_of O (@transitive_on) /\ eqs_of O (@reflexive_on).
Proof.
  intros chk t O. destruct (C73_equivalence (int t) O) as (A & B & C).
  - destruct t; vm_compute; reflexivity.
  - split; [|split]; cbn [eqb is_zero int_num O].
    + intros a b. apply Z.eqb_sym.
    + intros a b Ha Hb. lia.
    + intros a b H. apply Z.eqb_eq in H. rewrite H. reflexivity.
  - cbn [eqb int_num O]. intros a b c. lia.
  - split; [exact A|]. split; [exact B|]. apply C. intros a. apply Z.eqb_refl.
Qed.

(** Floats: symmetric and transitive; a polynomial equals itself exactly if no coefficient is NaN. *)
Theorem C73_float_partial : forall chk f powi, let O := float_num chk f powi in
  eqs_of O (@symmetric_on) /\ eqs_of O (@transitive_on) /\
  (forall l, dense_eq O l l = Ok true <-> Forall (fun c => is_nan_f c = false) l) /\
  (forall m, swf m -> (sparse_eq O m m = true <-> Forall (fun kv => is_nan_f (snd kv) = false) m)).
Proof.
  intros chk f powi O. destruct (C73_equivalence (flt f) O eq_refl (float_eq_zero chk f powi) (feqb_trans f)) as (A & B & _).
  split; [exact A|]. split; [exact B|].
  assert (S : forall a : flt f, feqb a a = true <-> is_nan_f a = false).
  { intros a. rewrite feqb_iff. tauto. }
  assert (E := float_eq_zero chk f powi). split.
  - intros l. rewrite (decides_self O E (fun _ => True) (dense_eq O) (dpol O)); [|intros a b _ _; apply (dense_eq_all O eq_refl)|exact I].
    unfold dpol. rewrite (cf_Forall (zero O) (fun c => is_nan_f c = false) l) by reflexivity.
    split; intros H d; apply S, H.
  - intros m Hm. assert (K := decides_self O E swf (fun a b => Ok (sparse_eq O a b)) (spol O)
      (fun a b Ha Hb => ex_intro _ _ (conj eq_refl (sparse_eq_all O eq_refl a b E Ha Hb))) m Hm).
    split.
    + intros H. rewrite Forall_forall. intros [k v] Hi. cbn [snd]. apply S.
      assert (K1 := proj1 K (f_equal Ok H) (N.to_nat k)). unfold spol in K1. rewrite N2Nat.id, (sorted_in_get _ _ _ (proj1 Hm) Hi) in K1. exact K1.
    + intros H. assert (K2 : Ok (sparse_eq O m m) = Ok true); [|congruence]. apply K. intros d. apply S. unfold spol.
      destruct (m_get (N.of_nat d) m) as [v|] eqn:G; [|reflexivity]. apply m_get_in in G. rewrite Forall_forall in H. apply (H _ G).
Qed.

(** So == on float polynomials is not reflexive. *)
Theorem C73_reflexive_refuted : forall chk f powi, ~ reflexive_on (fun _ => True) (dense_eq (float_num chk f powi)).
Proof. intros chk f powi H. specialize (H [B754_nan] I). discriminate H. Qed.

Example C73_case : dense_eq (float_num true F64 (fun x _ => x)) [f_of_Z F64 1; B754_nan; f_of_Z F64 2] [f_of_Z F64 1; B754_nan; f_of_Z F64 2] = Ok false
  /\ dense_eq (float_num true F64 (fun x _ => x)) [f_of_Z F64 1; B754_infinity true; f_of_Z F64 2] [f_of_Z F64 1; B754_infinity true; f_of_Z F64 2] = Ok true.
Proof. split; vm_compute; reflexivity. Qed.
