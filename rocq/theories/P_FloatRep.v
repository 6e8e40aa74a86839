(** Property C83: a float polynomial is the same dense or sparse. *)

From Coq Require Import List NArith ZArith Reals Lia Lra Bool Arith Sorted.
From Coq Require Import ZifyBool ZifyNat ZifyN.
From Flocq Require Import Core BinarySingleNaN.
From Verif Require Import Base Num Spec SpecFacts Laws Terms Dense DenseFacts DenseMul Sparse SparseFacts SparseArith Coef.
From Verif Require Import RealNum Floats FloatFacts FloatErr FloatEval FloatMul FloatCoef P_FloatErr P_Struct P_Num SimInst.
Import ListNotations.
Local Open Scope R_scope.

(** ** Specification *)

(** A vector of coefficients and a map from degrees hold the same floats; a zero may have
    either sign, and may be stored or not. *)
Definition agree {f} (l : list (flt f)) (m : bmap (flt f)) : Prop := forall d, fsame (vcoef l d) (mcoef m (N.of_nat d)).

(** ** Lemmas *)

Section Same.
Context {f : fty}.
Implicit Types x y c : flt f.

Lemma fsame_zero_inv x y : feqb x (fzero f) = true /\ feqb y (fzero f) = true -> exists s t, x = B754_zero s /\ y = B754_zero t.
Proof. intros [Hx Hy]. apply feqb_zero in Hx, Hy. destruct Hx as [s ->], Hy as [t ->]. eauto. Qed.

Lemma fadd_cong x y a b : fsame x y -> fsame a b -> fsame (fadd x a) (fadd y b).
Proof.
  assert (K : forall x y a, fsame x y -> fsame (fadd x a) (fadd y a)).
  { clear. intros x y a [->|H]; [apply fsame_refl|]. destruct (fsame_zero_inv _ _ H) as (s & t & -> & ->).
    destruct a as [r|r| |r m e Hm]; try apply fsame_refl. destruct s, t, r; cbn; apply fsame_zeros. }
  intros H1 H2. eapply fsame_trans; [apply K, H1|]. rewrite (fadd_comm y a), (fadd_comm y b). apply K, H2.
Qed.
Lemma fneg_cong x y : fsame x y -> fsame (fneg x) (fneg y).
Proof. intros [->|H]; [apply fsame_refl|]. destruct (fsame_zero_inv _ _ H) as (s & t & -> & ->). destruct s, t; cbn; apply fsame_zeros. Qed.
Lemma fsub_cong x y a b : fsame x y -> fsame a b -> fsame (fsub x a) (fsub y b).
Proof.
  intros H1 H2. assert (K : forall x a, fsame (fsub x a) (fadd x (fneg a))).
  { clear. intros x a. destruct x as [s|s| |s m e H], a as [t|t| |t m' e' H']; try apply fsame_refl; destruct s, t; cbn; try apply fsame_zeros; apply fsame_refl. }
  eapply fsame_trans; [apply K|]. eapply fsame_trans; [|apply fsame_sym, K]. apply fadd_cong; [exact H1|apply fneg_cong, H2].
Qed.
Lemma fmul_cong x y c : is_finite c = true -> fsame x y -> fsame (fmul x c) (fmul y c).
Proof.
  intros Hc [->|H]; [apply fsame_refl|]. destruct (fsame_zero_inv _ _ H) as (s & t & -> & ->).
  destruct c as [r|r| |r m e Hm]; try discriminate Hc; destruct s, t, r; cbn; apply fsame_zeros.
Qed.
Lemma fdiv_cong x y c : feqb c (fzero f) = false -> is_nan c = false -> fsame x y -> fsame (fdiv x c) (fdiv y c).
Proof.
  intros Hz Hc [->|H]; [apply fsame_refl|]. destruct (fsame_zero_inv _ _ H) as (s & t & -> & ->).
  destruct c as [r|r| |r m e Hm]; try discriminate Hc; [destruct r; discriminate Hz| |]; destruct s, t, r; cbn; apply fsame_zeros.
Qed.
Lemma fmul_zero c : is_finite c = true -> fsame (fmul (fzero f) c) (fzero f).
Proof. intros Hc. destruct c as [r|r| |r m e Hm]; try discriminate Hc; destruct r; cbn; apply fsame_zeros. Qed.
Lemma fdiv_zero c : feqb c (fzero f) = false -> is_nan c = false -> fsame (fdiv (fzero f) c) (fzero f).
Proof.
  intros Hz Hc. destruct c as [r|r| |r m e Hm]; try discriminate Hc; [destruct r; discriminate Hz| |]; destruct r; cbn; apply fsame_zeros.
Qed.
End Same.

(** Inserting the image of every entry. *)
Lemma insert_fold {T} (step : bmap T -> N * T -> res (bmap T)) (g : N * T -> option (N * T)) (m : bmap T) :
  NoDup (map fst m) ->
  (forall s kv, In kv m -> step s kv = Ok (match g kv with Some kv' => m_insert (fst kv') (snd kv') s | None => s end)) ->
  (forall a b x y, In a m -> In b m -> g a = Some x -> g b = Some y -> fst x = fst y -> fst a = fst b) ->
  forall s, exists r, foldM step s m = Ok r /\
    (forall kv k v, In kv m -> g kv = Some (k, v) -> m_get k r = Some v) /\
    (forall k, (forall kv v, In kv m -> g kv <> Some (k, v)) -> m_get k r = m_get k s).
Proof.
  induction m as [|a m IH]; intros Hn Hs Hi s.
  - exists s. split; [reflexivity|]. split; [intros ? ? ? []|reflexivity].
  - cbn [map] in Hn. apply NoDup_cons_iff in Hn. destruct Hn as [Hn1 Hn2]. cbn [foldM]. rewrite Hs by (left; reflexivity). cbn [bind].
    destruct (IH Hn2) with (s := match g a with Some kv' => m_insert (fst kv') (snd kv') s | None => s end) as (r & E & H1 & H2).
    + intros s' kv Hk. apply Hs. right. exact Hk.
    + intros b c x y Hb Hc. apply Hi; right; assumption.
    + exists r. split; [exact E|]. split.
      * intros kv k v [<-|Hk] Hg; [|eapply H1; eassumption]. rewrite H2.
        -- rewrite Hg. cbn [fst snd]. rewrite m_get_insert, N.eqb_refl. reflexivity.
        -- intros kv w Hkv Hgk. apply Hn1. rewrite (Hi a kv (k, v) (k, w)); auto using in_map; [left; reflexivity|right; exact Hkv].
      * intros k Hk. rewrite H2 by (intros kv v Hkv; apply Hk; right; exact Hkv).
        destruct (g a) as [[k' v']|] eqn:E'; [|reflexivity]. cbn [fst snd]. rewrite m_get_insert.
        destruct (N.eqb_spec k k') as [->|]; [|reflexivity]. exfalso. apply (Hk a v'); [left; reflexivity|exact E'].
Qed.

(** [n] is a float. *)
Definition whole (f : fty) (n : N) : Prop := exists x : flt f, is_finite x = true /\ B2R x = IZR (Z.of_N n).

Lemma whole_exact f n : (n < USIZE_MAX)%N -> whole f n -> f_of_exact f n = Some (f_of_Z f (Z.of_N n)).
Proof.
  intros Hn Hw. destruct (proj2 (proj1 (C48_float_exact_partial f n Hn)) Hw) as (v & H). rewrite H. unfold f_of_exact in H.
  destruct (_ =? _)%N; [symmetry; exact H|discriminate].
Qed.

Lemma whole_cont f n : (n <= f_cont_limit f)%N -> whole f n /\ (n < USIZE_MAX)%N.
Proof.
  intros H. pose proof (f_cont_limit_small f) as K. destruct (f_of_Z_small f (Z.of_N n)) as [E1 E2]; [lia|].
  split; [exists (f_of_Z f (Z.of_N n)); auto|]. assert (L : (f_cont_limit f < USIZE_MAX)%N) by (destruct f; reflexivity). lia.
Qed.

Lemma f_of_N_finite f n : (n <= USIZE_MAX)%N -> is_finite (f_of_Z f (Z.of_N n)) = true.
Proof. intros H. apply f_of_Z_int. unfold USIZE_MAX in H. lia. Qed.

Lemma whole_pos f n : (n <> 0)%N -> whole f n -> feqb (f_of_Z f (Z.of_N n)) (fzero f) = false /\ is_nan (f_of_Z f (Z.of_N n)) = false.
Proof.
  intros Hn (x & H1 & H2). destruct (f_of_Z_representable f _ x H1 H2) as [A B]. split.
  - destruct (feqb _ _) eqn:E; [|reflexivity]. apply feqb_zero in E. destruct E as [s E]. rewrite E in A. cbn in A.
    exfalso. apply Hn. apply eq_IZR in A. lia.
  - destruct (f_of_Z f (Z.of_N n)); try reflexivity. discriminate B.
Qed.

Lemma sorted_unique {A} (lt : A -> A -> Prop) : (forall x, ~ lt x x) -> (forall x y, lt x y -> ~ lt y x) ->
  forall a b, StronglySorted lt a -> StronglySorted lt b -> (forall x, In x a <-> In x b) -> a = b.
Proof.
  intros Irr Asym a b Sa. revert b. induction Sa as [|x a Sa IH Ha]; intros b Sb E.
  - destruct b as [|y b]; [reflexivity|]. exfalso. apply (proj2 (E y)). left. reflexivity.
  - destruct Sb as [|y b Sb Hb]; [exfalso; apply (proj1 (E x)); left; reflexivity|]. rewrite Forall_forall in Ha, Hb.
    assert (x = y) as ->.
    { destruct (proj1 (E x) (or_introl eq_refl)) as [|K1]; [congruence|]. destruct (proj2 (E y) (or_introl eq_refl)) as [|K2]; [congruence|].
      exfalso. apply (Asym y x); auto. }
    f_equal. apply IH; [exact Sb|]. intros z. split; intros Hz.
    + destruct (proj1 (E z) (or_intror Hz)) as [<-|K]; [|exact K]. exfalso. apply (Irr y), Ha, Hz.
    + destruct (proj2 (E z) (or_intror Hz)) as [<-|K]; [|exact K]. exfalso. apply (Irr y), Hb, Hz.
Qed.

Lemma lists_of_fun {T} (O : num T) p ts us : lists_of O p ts -> lists_of O p us -> ts = us.
Proof.
  intros [S1 H1] [S2 H2]. refine (sorted_unique _ _ _ ts us S1 S2 _).
  - intros x. lia. - intros x y. lia.
  - intros [c d]. rewrite H1, H2. reflexivity.
Qed.

Lemma has_degree_fun {T} (O : num T) p g h : has_degree O p g -> has_degree O p h -> g = h.
Proof.
  destruct g as [|g], h as [|h]; cbn; try congruence.
  - intros H [K _]. congruence.
  - intros [K _] H. congruence.
  - intros [K1 K2] [L1 L2]. f_equal. destruct (N.lt_trichotomy g h) as [C|[C|C]]; [|exact C|].
    + rewrite K2 in L1 by lia. discriminate.
    + rewrite L2 in K1 by lia. discriminate.
Qed.

(** ** C83 *)

(** Derivative and integral of a sparse polynomial: one rounding per stored coefficient,
    whenever the exponents involved are floats. *)
Theorem C83_sparse_calculus : forall chk f powi (m : bmap (flt f)), let O := float_num chk f powi in swf m ->
  ((forall k v, In (k, v) m -> k <> 0%N -> feqb v (fzero f) = false -> (k < USIZE_MAX)%N /\ whole f k) ->
   exists r, sparse_derivative O m = Ok r /\
     forall k, fsame (mcoef r k) (if m_get (k + 1) m then fmul (mcoef m (k + 1)) (f_of_Z f (Z.of_N (k + 1))) else fzero f)) /\
  ((forall k v, In (k, v) m -> (k + 1 < USIZE_MAX)%N /\ whole f (k + 1)) ->
   exists r, sparse_integral O m = Ok r /\ mcoef r 0 = fzero f /\
     forall k, mcoef r (k + 1) = if m_get k m then fdiv (mcoef m k) (f_of_Z f (Z.of_N (k + 1))) else fzero f).
Proof.
  intros chk f powi m O Hm. pose proof (sorted_nodup m (proj1 Hm)) as Nd. split.
  - intros Hw.
    set (g := fun kv : N * flt f => if negb (feqb (snd kv) (fzero f)) && negb (fst kv =? 0)%N
       then Some ((fst kv - 1)%N, fmul (snd kv) (f_of_Z f (Z.of_N (fst kv)))) else None).
    destruct (insert_fold (fun terms kv =>
      if negb (is_zero O (snd kv)) && negb (fst kv =? 0)%N then
        k <- usub (n_chk O) (fst kv) 1 ;; n <- expect (of_exact O (fst kv)) ;; v <- mul O (snd kv) n ;; Ok (m_insert k v terms)
      else Ok terms) g m Nd) with (s := @nil (N * flt f)) as (r & E & H1 & H2).
    + intros s [k v] Hk. unfold g. cbn [fst snd is_zero O float_num]. destruct (feqb v (fzero f)) eqn:Ev; [reflexivity|].
      destruct (N.eqb_spec k 0) as [|K]; [reflexivity|]. cbn [negb andb]. rewrite usub_le by lia. cbn [bind].
      destruct (Hw k v Hk K Ev) as [W1 W2]. change (of_exact O k) with (f_of_exact f k). rewrite (whole_exact f k W1 W2). reflexivity.
    + intros [a va] [b vb] x y Ha Hb. unfold g. cbn [fst snd]. destruct (negb (feqb va _)); [|discriminate]. destruct (negb (feqb vb _)); [|discriminate].
      destruct (N.eqb_spec a 0), (N.eqb_spec b 0); try discriminate. cbn. intros [= <-] [= <-]. cbn. lia.
    + exists r. split; [exact E|]. intros k. destruct (m_get (k + 1) m) as [v|] eqn:Ev.
      * assert (Hin := m_get_in _ _ _ Ev). destruct (feqb v (fzero f)) eqn:Ez.
        -- assert (K : m_get k r = None).
           { rewrite H2; [reflexivity|]. intros [k' v'] w Hk'. unfold g. cbn [fst snd]. destruct (feqb v' (fzero f)) eqn:Ez'; [discriminate|].
             destruct (N.eqb_spec k' 0); [discriminate|]. cbn. intros [= K1 _]. replace k' with (k + 1)%N in * by lia.
             rewrite (sorted_in_get m _ _ (proj1 Hm) Hk') in Ev. congruence. }
           unfold mcoef. rewrite K, Ev. apply fsame_sym. apply feqb_zero in Ez. destruct Ez as [s ->].
           assert (Hf : is_finite (f_of_Z f (Z.of_N (k + 1))) = true).
           { apply f_of_N_finite. destruct Hm as [_ Hm]. rewrite Forall_forall in Hm. apply (Hm _ Hin). }
           eapply fsame_trans; [apply fmul_cong; [exact Hf|apply (fsame_zeros s false)]|]. apply fmul_zero, Hf.
        -- left. unfold mcoef. rewrite Ev. rewrite (H1 (k + 1, v)%N k (fmul v (f_of_Z f (Z.of_N (k + 1))))); [reflexivity|exact Hin|].
           unfold g. cbn [fst snd]. rewrite Ez. replace (k + 1 =? 0)%N with false by lia. cbn. f_equal. f_equal. lia.
      * left. unfold mcoef. rewrite H2; [reflexivity|]. intros [k' v'] w Hk'. unfold g. cbn [fst snd]. destruct (feqb v' _); [discriminate|].
        destruct (N.eqb_spec k' 0); [discriminate|]. cbn. intros [= K1 _]. replace k' with (k + 1)%N in * by lia.
        rewrite (sorted_in_get m _ _ (proj1 Hm) Hk') in Ev. discriminate.
  - intros Hw.
    set (g := fun kv : N * flt f => Some ((fst kv + 1)%N, fdiv (snd kv) (f_of_Z f (Z.of_N (fst kv + 1))))).
    destruct (insert_fold (fun terms kv =>
      k <- uadd (n_chk O) (fst kv) 1 ;; n <- expect (of_exact O k) ;; v <- div O (snd kv) n ;; Ok (m_insert k v terms)) g m Nd) with (s := @nil (N * flt f)) as (r & E & H1 & H2).
    + intros s [k v] Hk. unfold g. cbn [fst snd]. destruct (Hw k v Hk) as [W1 W2]. rewrite uadd_small by lia. cbn [bind]. change (of_exact O (k + 1)%N) with (f_of_exact f (k + 1)).
      rewrite (whole_exact f _ W1 W2). reflexivity.
    + intros [a va] [b vb] x y Ha Hb. unfold g. cbn [fst snd]. intros [= <-] [= <-]. cbn. lia.
    + exists r. split; [exact E|]. split.
      * unfold mcoef. rewrite H2; [reflexivity|]. intros [k' v'] w _. unfold g. cbn [fst snd]. intros [= K _]. lia.
      * intros k. unfold mcoef. destruct (m_get k m) as [v|] eqn:Ev.
        -- rewrite (H1 (k, v) (k + 1)%N (fdiv v (f_of_Z f (Z.of_N (k + 1))))); [reflexivity|apply m_get_in, Ev|reflexivity].
        -- rewrite H2; [reflexivity|]. intros [k' v'] w Hk'. unfold g. cbn [fst snd]. intros [= K1 _]. replace k' with k in * by lia.
           rewrite (sorted_in_get m _ _ (proj1 Hm) Hk') in Ev. discriminate.
Qed.

(** Whatever is done to a float polynomial, the dense and the sparse representation give the
    same floats: degree, terms, ==, sum, difference, negation, multiple, quotient by a number,
    derivative and integral. *)
Theorem C83_agree : forall chk f powi (a b : list (flt f)) (m n : bmap (flt f)), let O := float_num chk f powi in
  swf m -> swf n -> agree a m -> agree b n ->
  dense_degree O a = sparse_degree O m /\
  dense_terms O a = Ok (sparse_terms O m) /\
  dense_eq O a b = Ok (sparse_eq O m n) /\
  (exists r s, dense_add O a b = Ok r /\ sparse_add O m n = Ok s /\ agree r s) /\
  (exists r s, dense_sub O a b = Ok r /\ sparse_sub O m n = Ok s /\ agree r s) /\
  (exists r s, dense_neg O a = Ok r /\ sparse_neg O m = Ok s /\ agree r s) /\
  (forall c, is_finite c = true -> exists r s, dense_scale O a c = Ok r /\ sparse_scale O m c = Ok s /\ agree r s) /\
  (forall c, feqb c (fzero f) = false -> is_nan c = false ->
     exists r s, dense_div_scalar O a c = Ok r /\ sparse_div_scalar O m c = Ok s /\ agree r s) /\
  ((len a <= f_cont_limit f)%N -> exists r s, dense_derivative O a = Ok r /\ sparse_derivative O m = Ok s /\ agree r s) /\
  ((len a <= f_cont_limit f)%N -> Forall (fun kv => (fst kv < f_cont_limit f)%N) m ->
     exists r s, dense_integral O a = Ok r /\ sparse_integral O m = Ok s /\ agree r s).
Proof.
  intros chk f powi a b m n O Hm Hn Ha Hb.
  assert (Z0 : is_zero O (zero O) = true) by apply float_zero.
  assert (Hout : forall d, (length a <= d)%nat -> vcoef a d = fzero f) by (intros d K; unfold vcoef; rewrite nth_overflow by (rewrite rev_length; exact K); reflexivity).
  assert (Sa : same_coefs O (dpol O a) (spol O m)) by exact Ha.
  assert (Sb : same_coefs O (dpol O b) (spol O n)) by exact Hb.
  split; [|split; [|split; [|split; [|split; [|split; [|split; [|split; [|split]]]]]]]].
  - pose proof (proj1 (C72_degree _ O Z0) a) as H1. pose proof (proj1 (proj2 (C72_degree _ O Z0)) m Hm) as H2.
    apply (has_degree_same O _ _ _ Sa) in H1. eapply has_degree_fun; eassumption.
  - destruct (proj1 (C72_terms _ O Z0) a) as (ts & E & H1). pose proof (proj1 (proj2 (C72_terms _ O Z0)) m Hm) as H2. rewrite E. f_equal.
    apply (lists_of_fun O (spol O m)); [|exact H2]. revert H1. apply lists_same; intros d Hd; destruct (Sa d) as [K|[K1 K2]]; congruence.
  - unfold dense_eq. destruct (proj1 (C72_terms _ O Z0) a) as (ts & E & H1). destruct (proj1 (C72_terms _ O Z0) b) as (us & F & H2).
    rewrite E, F. cbn [bind]. f_equal. apply eq_true_iff_eq.
    rewrite (proj1 (proj2 (C72_equality _ O Z0) (proj1 (proj2 (C72_float chk f powi)))) m n Hm Hn).
    apply (lists_eqb O Z0).
    + revert H1. apply lists_same; intros d Hd; destruct (Sa d) as [K|[K1 K2]]; congruence.
    + revert H2. apply lists_same; intros d Hd; destruct (Sb d) as [K|[K1 K2]]; congruence.
  - destruct (C64_dense_add chk f powi a b) as (r & E & H). destruct (proj1 (C64_sparse chk f powi m n (fzero f) Hm Hn)) as (s & E' & H').
    exists r, s. split; [exact E|]. split; [exact E'|]. intros d. eapply fsame_trans; [apply H|]. eapply fsame_trans; [|apply fsame_sym, H'].
    apply fadd_cong; [apply Ha|apply Hb].
  - destruct (C64_dense_sub chk f powi a b) as (r & E & _ & H). destruct (proj1 (proj2 (proj2 (C64_sparse chk f powi m n (fzero f) Hm Hn)))) as (s & E' & H').
    exists r, s. split; [exact E|]. split; [exact E'|]. intros d. eapply fsame_trans; [apply H|]. eapply fsame_trans; [|apply fsame_sym, H'].
    apply fsub_cong; [apply Ha|apply Hb].
  - destruct (C64_dense_neg chk f powi a) as (r & E & H). destruct (proj1 (proj2 (proj2 (proj2 (C64_sparse chk f powi m n (fzero f) Hm Hn))))) as (s & E' & H').
    exists r, s. split; [exact E|]. split; [exact E'|]. intros d. eapply fsame_trans; [apply H|]. eapply fsame_trans; [|apply fsame_sym, H'].
    apply fneg_cong, Ha.
  - intros c Hc. destruct (proj1 (C64_dense_scale chk f powi a c)) as (r & E & H).
    destruct (proj1 (proj2 (proj2 (proj2 (proj2 (C64_sparse chk f powi m n c Hm Hn)))))) as (s & E' & _ & H').
    exists r, s. split; [exact E|]. split; [exact E'|]. intros d. eapply fsame_trans; [apply H|]. rewrite H'.
    assert (K : fsame (fmul (vcoef a d) c) (fmul (mcoef m (N.of_nat d)) c)) by (apply fmul_cong; [exact Hc|apply Ha]).
    assert (K1 : fsame (if (d <? length a)%nat then fmul (vcoef a d) c else fzero f) (fmul (vcoef a d) c)).
    { destruct (Nat.ltb_spec d (length a)) as [|L]; [apply fsame_refl|]. rewrite Hout by exact L. apply fsame_sym, fmul_zero, Hc. }
    eapply fsame_trans; [exact K1|]. eapply fsame_trans; [exact K|]. unfold mcoef. destruct (m_get (N.of_nat d) m); [apply fsame_refl|apply fmul_zero, Hc].
  - intros c Hz Hc. destruct (proj1 (proj2 (proj2 (C64_dense_scale chk f powi a c)))) as (r & E & H).
    destruct (proj2 (proj2 (proj2 (proj2 (proj2 (C64_sparse chk f powi m n c Hm Hn)))))) as (s & E' & _ & H').
    exists r, s. split; [exact E|]. split; [exact E'|]. intros d. eapply fsame_trans; [apply H|]. rewrite H'.
    assert (K : fsame (fdiv (vcoef a d) c) (fdiv (mcoef m (N.of_nat d)) c)) by (apply fdiv_cong; [exact Hz|exact Hc|apply Ha]).
    assert (K1 : fsame (if (d <? length a)%nat then fdiv (vcoef a d) c else fzero f) (fdiv (vcoef a d) c)).
    { destruct (Nat.ltb_spec d (length a)) as [|L]; [apply fsame_refl|]. rewrite Hout by exact L. apply fsame_sym, fdiv_zero; assumption. }
    eapply fsame_trans; [exact K1|]. eapply fsame_trans; [exact K|]. unfold mcoef. destruct (m_get (N.of_nat d) m); [apply fsame_refl|apply fdiv_zero; assumption].
  - intros Hl. destruct (C64_dense_derivative chk f powi a Hl) as (r & E & H).
    destruct (proj1 (C83_sparse_calculus chk f powi m Hm)) as (s & E' & H').
    { intros k v Hk Hk0 Hv. assert (K : (N.to_nat k < length a)%nat).
      { apply Nat.nle_gt. intros K. pose proof (Ha (N.to_nat k)) as Q. rewrite Hout in Q by exact K. unfold mcoef in Q. rewrite N2Nat.id in Q.
        rewrite (sorted_in_get m k v (proj1 Hm) Hk) in Q. destruct Q as [<-|[_ Q]]; [|congruence]. rewrite (proj2 (feqb_zero _)) in Hv by (exists false; reflexivity). discriminate. }
      destruct (whole_cont f k) as [W1 W2]; [unfold len in Hl; lia|]. split; assumption. }
    exists r, s. split; [exact E|]. split; [exact E'|]. intros d. eapply fsame_trans; [apply H|]. eapply fsame_trans; [|apply fsame_sym, H'].
    replace (N.of_nat d + 1)%N with (N.of_nat (S d)) by lia. specialize (Ha (S d)). rewrite nat_N_Z.
    destruct (Nat.ltb_spec (S d) (length a)) as [L|L].
    + assert (Hf : is_finite (f_of_Z f (Z.of_nat (S d))) = true) by (apply f_of_nat_exact; unfold len in Hl; lia).
      eapply fsame_trans; [apply fmul_cong; [exact Hf|exact Ha]|]. unfold mcoef. destruct (m_get _ m); [apply fsame_refl|apply fmul_zero, Hf].
    + rewrite Hout in Ha by exact L. unfold mcoef in *. destruct (m_get (N.of_nat (S d)) m) as [v|] eqn:Ev; [|apply fsame_refl].
      assert (Hf : is_finite (f_of_Z f (Z.of_nat (S d))) = true).
      { rewrite <- nat_N_Z. apply f_of_N_finite. destruct Hm as [_ Hm]. rewrite Forall_forall in Hm. apply (Hm _ (m_get_in _ _ _ Ev)). }
      eapply fsame_trans; [apply fsame_sym, (fmul_zero (f_of_Z f (Z.of_nat (S d)))), Hf|]. apply fmul_cong; assumption.
  - intros Hl Hk. destruct (C64_dense_integral chk f powi a Hl) as (r & E & H0 & H).
    destruct (proj2 (C83_sparse_calculus chk f powi m Hm)) as (s & E' & H0' & H').
    { intros k v Hin. rewrite Forall_forall in Hk. specialize (Hk _ Hin). cbn in Hk. destruct (whole_cont f (k + 1)); [lia|]. auto. }
    exists r, s. split; [exact E|]. split; [exact E'|]. intros [|d]; [change (N.of_nat 0) with 0%N; rewrite H0'; exact H0|].
    eapply fsame_trans; [apply H|]. replace (N.of_nat (S d)) with (N.of_nat d + 1)%N by lia. rewrite H'.
    replace (Z.of_N (N.of_nat d + 1)) with (Z.of_nat (S d)) by lia. specialize (Ha d).
    destruct (Nat.ltb_spec d (length a)) as [L|L].
    + destruct (whole_pos f (N.of_nat (S d))) as [P1 P2]; [lia|apply whole_cont; unfold len in Hl; lia|]. rewrite nat_N_Z in P1, P2.
      eapply fsame_trans; [apply fdiv_cong; [exact P1|exact P2|exact Ha]|]. unfold mcoef. destruct (m_get _ m); [apply fsame_refl|apply fdiv_zero; assumption].
    + rewrite Hout in Ha by exact L. unfold mcoef in *. destruct (m_get (N.of_nat d) m) as [v|] eqn:Ev; [|apply fsame_refl].
      rewrite Forall_forall in Hk. specialize (Hk _ (m_get_in _ _ _ Ev)). cbn [fst] in Hk.
      destruct (whole_pos f (N.of_nat (S d))) as [P1 P2]; [lia|apply whole_cont; lia|]. rewrite nat_N_Z in P1, P2.
      eapply fsame_trans; [apply fsame_sym, (fdiv_zero (f_of_Z f (Z.of_nat (S d)))); assumption|]. apply fdiv_cong; assumption.
Qed.

(** Products add in opposite orders, so they agree only up to rounding. *)
Theorem C83_mul_bound : forall chk f powi (a b r : list (flt f)) (m n s : bmap (flt f)), let O := float_num chk f powi in
  swf m -> swf n -> agree a m -> agree b n -> vec_ok O a -> vec_ok O b ->
  (forall ka kb, In ka m -> In kb n -> (fst ka + fst kb <= USIZE_MAX)%N) ->
  dense_mul O a b = Ok r -> sparse_mul O m n = Ok s ->
  forall d, is_finite (vcoef r d) = true -> is_finite (mcoef s (N.of_nat d)) = true ->
  Rabs (B2R (vcoef r d) - B2R (mcoef s (N.of_nat d))) <=
    product_bound f (Nat.min (length a) (length b)) (pmul (rpoly_abs a) (rpoly_abs b) d) +
    product_bound f (Nat.min (length m) (length n)) (pmul (rpoly_abs a) (rpoly_abs b) d).
Proof.
  intros chk f powi a b r m n s O Hm Hn Ha Hb Va Vb Hk Hr Hs d F1 F2. subst O.
  pose proof (C66_dense_mul chk f powi a b r Va Vb (or_introl Hr) d F1) as K1.
  destruct (C66_sparse_mul chk f powi m n Hm Hn Hk) as (s' & E & K2). rewrite Hs in E. injection E as <-. specialize (K2 d F2).
  rewrite <- (@pmul_ext R_ring (rpoly a) _ (rpoly b) _) in K2.
  2:{ intros i. apply (fsame_B _ _ (Ha i)). }
  2:{ intros i. apply (fsame_B _ _ (Hb i)). }
  rewrite <- (@pmul_ext R_ring (rpoly_abs a) (fun d => Rabs (B2R (mcoef m (N.of_nat d)))) (rpoly_abs b) (fun d => Rabs (B2R (mcoef n (N.of_nat d))))) in K2.
  2:{ intros i. unfold rpoly_abs. f_equal. apply (fsame_B _ _ (Ha i)). }
  2:{ intros i. unfold rpoly_abs. f_equal. apply (fsame_B _ _ (Hb i)). }
  set (v := pmul (rpoly a) (rpoly b) d) in *.
  replace (B2R (vcoef r d) - B2R (mcoef s (N.of_nat d))) with ((B2R (vcoef r d) - v) - (B2R (mcoef s (N.of_nat d)) - v)) by ring.
  eapply Rle_trans; [apply Rabs_triang|]. rewrite Rabs_Ropp. apply Rplus_le_compat; assumption.
Qed.

(** (2^53 x^2 + x + 1)(x^2 + x + 1) in f64: the x^2 coefficient is 2^53 dense and 2^53 + 2 sparse. *)
Theorem C83_mul_refuted : exists (a b : list (flt F64)) (m n : bmap (flt F64)), swf m /\ swf n /\ agree a m /\ agree b n /\
  forall chk powi, let O := float_num chk F64 powi in
  rmap (fun r => B2SF (vcoef r 2)) (dense_mul O a b) = Ok (B2SF (f_of_Z F64 (2 ^ 53))) /\
  rmap (fun s => B2SF (mcoef s 2)) (sparse_mul O m n) = Ok (B2SF (f_of_Z F64 (2 ^ 53 + 2))) /\
  feqb (f_of_Z F64 (2 ^ 53)) (f_of_Z F64 (2 ^ 53 + 2)) = false.
Proof.
  exists [one64; one64; one64], [big; one64; one64], [(0%N, one64); (1%N, one64); (2%N, one64)], [(0%N, one64); (1%N, one64); (2%N, big)].
  assert (W : forall x y z : flt F64, swf [(0%N, x); (1%N, y); (2%N, z)]).
  { intros x y z. split; [repeat constructor|]. rewrite Forall_forall. intros kv [<-|[<-|[<-|[]]]]; vm_compute; discriminate. }
  assert (A : forall x y z : flt F64, agree [x; y; z] [(0%N, z); (1%N, y); (2%N, x)]).
  { intros x y z [|[|[|d]]]; left; try reflexivity. unfold vcoef, mcoef. rewrite nth_overflow by (cbn; lia). cbn [m_get].
    replace (N.of_nat (S (S (S d))) =? 0)%N with false by lia. replace (N.of_nat (S (S (S d))) =? 1)%N with false by lia.
    replace (N.of_nat (S (S (S d))) =? 2)%N with false by lia. reflexivity. }
  split; [apply W|]. split; [apply W|]. split; [apply A|]. split; [apply A|].
  intros chk powi O. split; [destruct chk; vm_compute; reflexivity|]. split; [destruct chk; vm_compute; reflexivity|]. vm_compute. reflexivity.
Qed.

(** A zero coefficient is there or not: times infinity, the dense one becomes NaN. *)
Theorem C83_scale_refuted : exists (a : list (flt F64)) (m : bmap (flt F64)) c r s, swf m /\ agree a m /\
  forall chk powi, let O := float_num chk F64 powi in
  dense_scale O a c = Ok r /\ sparse_scale O m c = Ok s /\ is_nan (vcoef r 0) = true /\ is_nan (mcoef s 0) = false.
Proof.
  exists [f_of_Z F64 1; fzero F64], [(1%N, f_of_Z F64 1)], (B754_infinity false), [B754_infinity false; B754_nan], [(1%N, B754_infinity false)].
  split; [|split; [|]].
  - split; repeat constructor. vm_compute. discriminate.
  - intros [|[|d]]; left; try reflexivity. unfold vcoef, mcoef. rewrite nth_overflow by (cbn; lia). cbn [m_get].
    replace (N.of_nat (S (S d)) =? 1)%N with false by lia. reflexivity.
  - intros chk powi O. repeat split; reflexivity.
Qed.

(** 3x^2 - 0.0x + NaN, the zero stored on one side only. *)
Example C83_case : let a : list (flt F64) := [f_of_Z F64 3; B754_zero true; B754_nan] in let m : bmap (flt F64) := [(0%N, B754_nan); (2%N, f_of_Z F64 3)] in
  swf m /\ agree a m /\ (len a <= f_cont_limit F64)%N /\ Forall (fun kv => (fst kv < f_cont_limit F64)%N) m /\
  forall powi, let O := float_num true F64 powi in
  rmap (map (@B2SF (fprec F64) (femax F64))) (dense_derivative O a) = Ok [B2SF (f_of_Z F64 6); SpecFloat.S754_zero true] /\
  rmap (map (fun kv : N * flt F64 => (fst kv, B2SF (snd kv)))) (sparse_derivative O m) = Ok [(1%N, B2SF (f_of_Z F64 6))].
Proof.
  intros a m. split; [|split; [|split; [|split]]].
  - split; [repeat constructor|]. rewrite Forall_forall. intros kv [<-|[<-|[]]]; vm_compute; discriminate.
  - intros [|[|[|d]]]; [left; reflexivity|right; split; reflexivity|left; reflexivity|]. left. unfold vcoef, mcoef. rewrite nth_overflow by (cbn; lia). cbn [m_get m].
    replace (N.of_nat (S (S (S d))) =? 0)%N with false by lia. replace (N.of_nat (S (S (S d))) =? 2)%N with false by lia. reflexivity.
  - vm_compute. discriminate.
  - rewrite Forall_forall. intros kv [<-|[<-|[]]]; vm_compute; reflexivity.
  - intros powi O. split; vm_compute; reflexivity.
Qed.

Print Assumptions C83_sparse_calculus.
Print Assumptions C83_agree.
Print Assumptions C83_mul_bound.
Print Assumptions C83_mul_refuted.
Print Assumptions C83_scale_refuted.
