(** Properties C32-C38: printing and parsing.

    Strings are lists of characters; [lit "..."] is a literal. *)

From Coq Require Import String Ascii List NArith ZArith Lia Bool Ring Arith Sorted Permutation.
From Coq Require Import ZifyBool ZifyNat ZifyN.
From Verif Require Import Base Num Spec SpecFacts Laws Terms Dense Sparse Mono Bino Trino.
From Verif Require Import DenseFacts DenseMut Wrap SparseFacts SparseCalc FixedFacts P_Dense1 P_Sparse1 P_Fixed1.
From Verif Require Import PolyMath MutFacts P_Mut Strs StrFacts StrShow.
Import ListNotations.

(** ** C34 *)

(** Classes of characters, by code point: + and -; space, comma and underscore; what a number may
    contain (a sign, a dot, a decimal digit). *)
Definition sign_char (c : N) : bool := ((c =? 43) || (c =? 45))%N.
Definition sep_char (c : N) : bool := ((c =? 32) || (c =? 44) || (c =? 95))%N.
Definition num_char (c : N) : bool := ((c =? 43) || (c =? 45) || (c =? 46) || ((48 <=? c) && (c <=? 57)))%N.

(** White_Space of Unicode. *)
Definition blank_char (c : N) : bool :=
  (((9 <=? c) && (c <=? 13)) || (c =? 32) || (c =? 133) || (c =? 160) || (c =? 5760)
   || ((8192 <=? c) && (c <=? 8202)) || (c =? 8232) || (c =? 8233) || (c =? 8239)
   || (c =? 8287) || (c =? 12288))%N.

Ltac chars := try change blank_char with is_ws in *; try change sign_char with is_sign in *; try change sep_char with is_sep in *; try change num_char with is_numch in *.

Definition blank (s : str) : Prop := forallb blank_char s = true.
Definition has_no_sign (s : str) : Prop := forallb (fun c => negb (sign_char c)) s = true.

(** [a]..[b] cut into consecutive non-empty pieces *)
Fixpoint chain (a : N) (rs : list (N * N)) (b : N) : Prop :=
  match rs with [] => a = b | (x, y) :: rs' => x = a /\ (x < y)%N /\ chain y rs' b end.

(** The tokens of [s]: the string is cut at every sign that comes after the first non-blank
    character of its token. *)
Definition is_tokenization (s : str) (toks : list str) : Prop :=
  concat toks = s /\ 
  match toks with
  | [] => True
  | k :: ks =>
    (exists w c u, k = w ++ c :: u /\ blank w /\ blank_char c = false /\ has_no_sign u \/ k <> [] /\ blank k /\ ks = []) /\
    Forall (fun x => exists c u, x = c :: u /\ sign_char c = true /\ has_no_sign u) ks
  end.

Lemma sign_ws c : is_ws c = true -> is_sign c = false.
Proof. unfold is_ws, is_sign. change (ch "+") with 43%N. change (ch "-") with 45%N. lia. Qed.
Lemma sign_not_ws c : is_sign c = true -> is_ws c = false.
Proof. intros H. destruct (is_ws c) eqn:E; [|reflexivity]. apply sign_ws in E. congruence. Qed.

Lemma split_true_shape s : forall cur, cur <> [] ->
  exists u ks, split_tok true cur s = (cur ++ u) :: ks /\ has_no_sign u /\
    Forall (fun x => exists c u, x = c :: u /\ sign_char c = true /\ has_no_sign u) ks.
Proof.
  induction s as [|c s IH]; intros cur Hc; cbn [split_tok].
  - exists [], []. rewrite app_nil_r. destruct cur; [congruence|]. split; [reflexivity|]. split; [reflexivity|constructor].
  - destruct (is_sign c) eqn:Es.
    + destruct (IH [c] ltac:(discriminate)) as (u & ks & E & Hu & Hk). exists [], (([c] ++ u) :: ks). rewrite app_nil_r, E.
      split; [reflexivity|]. split; [reflexivity|]. constructor; [exists c, u; auto|exact Hk].
    + cbn [orb]. destruct (IH (cur ++ [c])) as (u & ks & E & Hu & Hk); [destruct cur; discriminate|].
      exists (c :: u), ks. rewrite E, <- app_assoc. split; [reflexivity|]. split; [|exact Hk].
      unfold has_no_sign. chars. cbn [forallb]. rewrite Es. exact Hu.
Qed.

Lemma split_false_shape s : forall cur, blank cur ->
  match split_tok false cur s with
  | [] => cur = [] /\ s = []
  | k :: ks => (exists w c u, k = w ++ c :: u /\ blank w /\ blank_char c = false /\ has_no_sign u \/ k <> [] /\ blank k /\ ks = []) /\
      Forall (fun x => exists c u, x = c :: u /\ sign_char c = true /\ has_no_sign u) ks
  end.
Proof.
  induction s as [|c s IH]; intros cur Hc; cbn [split_tok].
  - destruct cur; [auto|]. split; [|constructor]. exists [], 0%N, []. right. split; [discriminate|auto].
  - assert (G : is_ws c = false -> match split_tok true (cur ++ [c]) s with
      | [] => cur = [] /\ c :: s = []
      | k :: ks => (exists w c u, k = w ++ c :: u /\ blank w /\ blank_char c = false /\ has_no_sign u \/ k <> [] /\ blank k /\ ks = []) /\
          Forall (fun x => exists c u, x = c :: u /\ sign_char c = true /\ has_no_sign u) ks end).
    { intros Hw. destruct (split_true_shape s (cur ++ [c])) as (u & ks & -> & Hu & Hk); [destruct cur; discriminate|].
      split; [|exact Hk]. exists cur, c, u. left. rewrite <- app_assoc. auto. }
    destruct (is_sign c) eqn:Es; [apply G, sign_not_ws, Es|]. cbn [orb]. destruct (is_ws c) eqn:Ew; cbn [negb]; [|apply G; reflexivity].
    specialize (IH (cur ++ [c])). assert (Hb : blank (cur ++ [c])) by (unfold blank; rewrite forallb_app; unfold blank in Hc; rewrite Hc; chars; cbn [forallb andb]; rewrite Ew; reflexivity).
    specialize (IH Hb). destruct (split_tok false (cur ++ [c]) s); [|exact IH]. destruct IH as [E _]. apply app_eq_nil in E. destruct E; discriminate.
Qed.

Lemma tokens_tokenization s : is_tokenization s (tokens s).
Proof.
  split; [apply tokens_concat|]. pose proof (split_false_shape s [] eq_refl) as H. unfold tokens.
  destruct (split_tok false [] s); [exact I|exact H].
Qed.

Lemma split_true_concat ks : forall cur, cur <> [] ->
  Forall (fun x => exists c u, x = c :: u /\ sign_char c = true /\ has_no_sign u) ks ->
  split_tok true cur (concat ks) = cur :: ks.
Proof.
  induction ks as [|k ks IH]; intros cur Hc H; [destruct cur; [congruence|reflexivity]|].
  inversion H as [|? ? (c & u & -> & Hs & Hu) Hk]; subst. chars. cbn [concat app split_tok]. rewrite Hs. f_equal.
  rewrite split_run by exact Hu. apply IH; [discriminate|exact Hk].
Qed.
Lemma split_blank w : forall cur s, blank w -> split_tok false cur (w ++ s) = split_tok false (cur ++ w) s.
Proof.
  induction w as [|c w IH]; intros cur s H; [rewrite app_nil_r; reflexivity|]. unfold blank in H. chars. cbn [forallb] in H.
  apply andb_true_iff in H. destruct H as [H1 H2]. cbn [app split_tok]. rewrite (sign_ws c H1), H1. cbn [orb negb].
  rewrite IH by exact H2. rewrite <- app_assoc. reflexivity.
Qed.

Lemma tokenization_unique s toks : is_tokenization s toks -> toks = tokens s.
Proof.
  intros [Hc H]. chars. destruct toks as [|k ks]; [cbn in Hc; subst s; reflexivity|]. destruct H as [(w & c & u & H) Hk].
  unfold tokens. cbn [concat] in Hc. subst s. destruct H as [(-> & Hw & Hn & Hu)|(Hk0 & Hb & ->)].
  - rewrite <- app_assoc. cbn [app]. rewrite split_blank by exact Hw. cbn [app split_tok]. rewrite Hn. cbn [orb negb].
    replace (if is_sign c then split_tok true (w ++ [c]) (u ++ concat ks) else split_tok true (w ++ [c]) (u ++ concat ks))
      with (split_tok true (w ++ [c]) (u ++ concat ks)) by (destruct (is_sign c); reflexivity).
    rewrite split_run by exact Hu. rewrite split_true_concat; [rewrite <- app_assoc; reflexivity|destruct w; discriminate|exact Hk].
  - cbn [concat]. rewrite split_blank by exact Hb. cbn [app split_tok]. destruct k; [congruence|reflexivity].
Qed.

Lemma ranges_chain toks : forall a, Forall (fun k => k <> []) toks -> chain a (ranges_of a toks) (a + slen (concat toks))%N.
Proof.
  induction toks as [|k ks IH]; intros a H; cbn [ranges_of concat slen chain]; [cbn [slen]; lia|].
  inversion H as [|? ? Hk Hks]; subst. split; [reflexivity|]. split.
  - assert (slen k <> 0%N) by (rewrite slen_0; exact Hk). lia.
  - rewrite slen_app. replace (a + (slen k + slen (concat ks)))%N with (a + slen k + slen (concat ks))%N by lia. apply IH, Hks.
Qed.
Lemma ranges_slices toks : forall pre s, s = pre ++ concat toks ->
  mapM (fun r => slice s (fst r) (snd r)) (ranges_of (slen pre) toks) = Ok toks.
Proof.
  induction toks as [|k ks IH]; intros pre s Hs; cbn [ranges_of mapM fst snd]; [reflexivity|].
  cbn [concat] in Hs. rewrite Hs at 1. rewrite slice_app. cbn [bind].
  rewrite <- slen_app. rewrite (IH (pre ++ k) s) by (rewrite <- app_assoc; exact Hs). reflexivity.
Qed.
Lemma tokens_nonempty s : Forall (fun k => k <> []) (tokens s).
Proof.
  destruct (tokens_tokenization s) as [_ H]. destruct (tokens s) as [|k ks]; [constructor|].
  destruct H as [(w & c & u & H) Hk]. constructor.
  - destruct H as [(-> & _)|(H & _)]; [destruct w; discriminate|exact H].
  - eapply Forall_impl; [|exact Hk]. intros x (c' & u' & -> & _). discriminate.
Qed.

Theorem C34_tokens_partition : forall s, exists rs toks,
  tok_ranges (tok_fuel s) (tok_new s) = Ok rs /\ chain 0 rs (slen s) /\
  mapM (fun r => slice s (fst r) (snd r)) rs = Ok toks /\ is_tokenization s toks /\ (rs = [] <-> s = []).
Proof.
  intros s. exists (ranges_of 0 (tokens s)), (tokens s). split; [apply tok_ranges_tokens|].
  split; [pose proof (ranges_chain (tokens s) 0 (tokens_nonempty s)) as H; rewrite tokens_concat in H; exact H|].
  split; [apply (ranges_slices (tokens s) []); rewrite tokens_concat; reflexivity|].
  split; [apply tokens_tokenization|]. pose proof (tokens_concat s) as Hc. destruct (tokens s) as [|k ks] eqn:E.
  - cbn in Hc. subst s. split; reflexivity.
  - split; [discriminate|]. intros ->. cbn in E. discriminate.
Qed.

(** The tokenisation is determined by its description. *)
Theorem C34_tokens_unique : forall s a b, is_tokenization s a -> is_tokenization s b -> a = b.
Proof. intros s a b Ha Hb. rewrite (tokenization_unique s a Ha), (tokenization_unique s b Hb). reflexivity. Qed.

(** The UTF-8 encoding of a character and of a string, as bytes. *)
Definition utf8 (c : N) : list N :=
  if (c <? 128)%N then [c]
  else if (c <? 2048)%N then [192 + c / 64; 128 + c mod 64]%N
  else if (c <? 65536)%N then [224 + c / 4096; 128 + (c / 64) mod 64; 128 + c mod 64]%N
  else [240 + c / 262144; 128 + (c / 4096) mod 64; 128 + (c / 64) mod 64; 128 + c mod 64]%N.
Definition bytes (s : str) : list N := flat_map utf8 s.

Lemma slen_bytes s : slen s = N.of_nat (length (bytes s)).
Proof.
  induction s as [|c s IH]; [reflexivity|]. cbn [slen bytes flat_map]. fold (bytes s). rewrite app_length, Nat2N.inj_add, IH.
  f_equal. unfold clen, utf8. destruct (c <? 128)%N, (c <? 2048)%N, (c <? 65536)%N; reflexivity.
Qed.

Lemma bytes_app a b : bytes (a ++ b) = bytes a ++ bytes b.
Proof. apply flat_map_app. Qed.

Lemma ranges_bytes toks : forall pre : str,
  map (fun r => firstn (N.to_nat (snd r - fst r)) (skipn (N.to_nat (fst r)) (bytes (pre ++ concat toks)))) (ranges_of (slen pre) toks)
  = map bytes toks.
Proof.
  induction toks as [|k toks IH]; intros pre; [reflexivity|]. cbn [ranges_of map concat fst snd]. f_equal.
  - replace (slen pre + slen k - slen pre)%N with (slen k) by lia. rewrite !slen_bytes, !Nat2N.id, !bytes_app.
    rewrite skipn_app, skipn_all, Nat.sub_diag. cbn [skipn app]. rewrite firstn_app, Nat.sub_diag, firstn_all. cbn [firstn]. apply app_nil_r.
  - replace (slen pre + slen k)%N with (slen (pre ++ k)) by apply slen_app. rewrite app_assoc. apply IH.
Qed.

(** The ranges are byte ranges: cutting the UTF-8 bytes of the string at them gives the UTF-8
    bytes of the tokens. *)
Theorem C34_byte_ranges : forall s, exists rs toks,
  tok_ranges (tok_fuel s) (tok_new s) = Ok rs /\ is_tokenization s toks /\
  chain 0 rs (N.of_nat (length (bytes s))) /\
  map (fun r => firstn (N.to_nat (snd r - fst r)) (skipn (N.to_nat (fst r)) (bytes s))) rs = map bytes toks.
Proof.
  intros s. exists (ranges_of 0 (tokens s)), (tokens s). split; [apply tok_ranges_tokens|]. split; [apply tokens_tokenization|].
  rewrite <- slen_bytes. split; [pose proof (ranges_chain (tokens s) 0 (tokens_nonempty s)) as H; rewrite tokens_concat in H; exact H|].
  pose proof (ranges_bytes (tokens s) []) as H. cbn [app slen] in H. rewrite tokens_concat in H. exact H.
Qed.

(** A blank, a sign before the first character, a two-byte character. *)
Example C34_case : tokens (lit " - 3x" ++ [233%N] ++ lit "+-5") = [lit " - 3x" ++ [233%N]; lit "+"; lit "-5"] /\
  tok_ranges (tok_fuel (lit " - 3x" ++ [233%N] ++ lit "+-5")) (tok_new (lit " - 3x" ++ [233%N] ++ lit "+-5"))
  = Ok [(0, 7); (7, 8); (8, 10)]%N.
Proof. split; vm_compute; reflexivity. Qed.

(** ** C36 *)

Definition no_seps (s : str) : str := filter (fun c => negb (sep_char c)) s.

(** Blanks, commas and underscores anywhere make no difference. *)
Theorem C36_separators_ignored : forall T (O : num T) (X : txt T) s, term_from_str O X s = term_from_str O X (no_seps s).
Proof. intros. apply term_loop_clean. Qed.

Definition numeric (s : str) : Prop := forallb num_char s = true.

(** The coefficient written before x. *)
Inductive coeff_text {T} (O : num T) (X : txt T) : str -> T -> Prop :=
| ct_none : coeff_text O X [] (one O)
| ct_sign c v : sign_char c = true -> parse X [c; ch "1"] = Some v -> coeff_text O X [c] v
| ct_num n v : numeric n -> n <> [] -> (forall c, n = [c] -> sign_char c = false) -> parse X n = Some v -> coeff_text O X n v.

(** The language accepted, without separators. *)
Inductive term_text {T} (O : num T) (X : txt T) : str -> term T -> Prop :=
| tt_const n v : numeric n -> parse X n = Some v -> term_text O X n (term_new O v 0)
| tt_x n v : coeff_text O X n v -> term_text O X (n ++ lit "x") (term_new O v 1)
| tt_xn n v e d : coeff_text O X n v -> numeric e -> e <> [] -> parse_usize e = Some d ->
    term_text O X (n ++ lit "x" ++ e) (term_new O v d)
| tt_pow n v e1 e2 d : coeff_text O X n v -> numeric e1 -> numeric e2 -> e1 ++ e2 <> [] -> parse_usize (e1 ++ e2) = Some d ->
    term_text O X (n ++ lit "x" ++ e1 ++ lit "^" ++ e2) (term_new O v d).

Section C36.
Context {T : Type} (O : num T) (X : txt T).

Lemma coeff_text_at n v : coeff_text O X n v -> numeric n /\ coeff_at_x X n (one O) = inl v.
Proof.
  intros [|c w Hc Hp|m w Hn H0 H1 Hp].
  - split; reflexivity.
  - split; [|apply coeff_at_x_sign; assumption]. unfold numeric. chars. cbn [forallb]. unfold is_sign in Hc. unfold is_numch.
    rewrite andb_true_r. apply orb_true_iff in Hc. destruct Hc as [-> | ->]; [reflexivity|]. rewrite !orb_true_r. reflexivity.
  - split; [exact Hn|]. apply coeff_at_x_num; assumption.
Qed.
Lemma coeff_at_text n v : numeric n -> coeff_at_x X n (one O) = inl v -> coeff_text O X n v.
Proof.
  intros Hn H. destruct n as [|c n]; [injection H as <-; constructor|]. unfold coeff_at_x in H.
  destruct n as [|c' n].
  - destruct ((c =? ch "-")%N || (c =? ch "+")%N) eqn:Es.
    + destruct (parse X [c; ch "1"]) eqn:Ep; [|discriminate]. injection H as <-. apply ct_sign; [|exact Ep].
      chars. unfold is_sign. rewrite orb_comm. exact Es.
    + destruct (parse X [c]) eqn:Ep; [|discriminate]. injection H as <-. apply ct_num; [exact Hn|discriminate| |exact Ep].
      intros x [= <-]. chars. unfold is_sign. rewrite orb_comm. exact Es.
  - destruct (parse X (c :: c' :: n)) eqn:Ep; [|discriminate]. injection H as <-. apply ct_num; [exact Hn|discriminate| |exact Ep].
    intros x Hx. discriminate Hx.
Qed.

Lemma term_text_sound s t : term_text O X s t -> term_from_str O X s = inl t.
Proof.
  unfold term_from_str. intros [n v Hn Hp|n v Hc|n v e d Hc He H0 Hd|n v e1 e2 d Hc H1 H2 H0 Hd].
  - rewrite <- (app_nil_r n). rewrite term_loop_num by exact Hn. cbn [app term_loop]. unfold term_finish. rewrite Hp. reflexivity.
  - destruct (coeff_text_at n v Hc) as [Hn Ha]. rewrite term_loop_num by exact Hn. cbn [app]. change (lit "x") with [ch "x"].
    rewrite term_loop_x, Ha. reflexivity.
  - destruct (coeff_text_at n v Hc) as [Hn Ha]. rewrite term_loop_num by exact Hn. cbn [app].
    change (lit "x" ++ e) with (ch "x" :: e). rewrite term_loop_x, Ha. rewrite <- (app_nil_r e), term_loop_num by exact He.
    cbn [term_loop app]. unfold term_finish. rewrite Hd. destruct e; [congruence|reflexivity].
  - destruct (coeff_text_at n v Hc) as [Hn Ha]. rewrite term_loop_num by exact Hn. cbn [app].
    change (lit "x" ++ e1 ++ lit "^" ++ e2) with (ch "x" :: e1 ++ ch "^" :: e2). rewrite term_loop_x, Ha.
    rewrite term_loop_num by exact H1. cbn [app]. rewrite term_loop_caret.
    rewrite <- (app_nil_r e2), term_loop_num by exact H2. cbn [term_loop]. unfold term_finish. rewrite Hd.
    destruct (e1 ++ e2); [congruence|reflexivity].
Qed.

(** Inversion of the loop after the x. *)
Lemma loop_after_x s : forall v c sc t, no_seps s = s -> numeric v -> term_loop O X s v c true sc = inl t ->
  (numeric s /\ term_finish O X (v ++ s) c true sc = inl t) \/
  (sc = false /\ exists e1 e2, s = e1 ++ ch "^" :: e2 /\ numeric e1 /\ numeric e2 /\ term_finish O X (v ++ e1 ++ e2) c true true = inl t).
Proof.
  induction s as [|x s IH]; intros v c sc t Hs Hv H; cbn [term_loop] in H.
  - left. rewrite app_nil_r. split; [reflexivity|exact H].
  - unfold no_seps in Hs. chars. cbn [filter] in Hs. destruct (is_sep x) eqn:Ex; cbn [negb] in Hs.
    { exfalso. assert (L : length (filter (fun c => negb (is_sep c)) s) <= length s) by (clear; induction s as [|y s IH]; cbn; [lia|destruct (is_sep y); cbn; lia]).
      rewrite Hs in L. cbn in L. lia. }
    injection Hs as Hs. fold (no_seps s) in Hs. destruct (is_numch x) eqn:En.
    + destruct (IH (v ++ [x]) c sc t Hs) as [(A & B)|(-> & e1 & e2 & -> & A1 & A2 & B)]; [|exact H| |].
      * unfold numeric in *. chars. rewrite forallb_app. rewrite Hv. cbn. rewrite En. reflexivity.
      * left. rewrite <- app_assoc in B. split; [unfold numeric; chars; cbn [forallb]; rewrite En; exact A|exact B].
      * right. split; [reflexivity|]. exists (x :: e1), e2. rewrite <- app_assoc in B. split; [reflexivity|].
        split; [unfold numeric; chars; cbn [forallb]; rewrite En; exact A1|]. split; [exact A2|exact B].
    + destruct (x =? ch "x")%N; [discriminate|]. destruct (N.eqb_spec x (ch "^")) as [->|]; [|discriminate].
      destruct sc; [discriminate|]. cbn [negb] in H.
      destruct (IH v c true t Hs Hv H) as [(A & B)|(E & _)]; [|discriminate].
      right. split; [reflexivity|]. exists [], s. split; [reflexivity|]. split; [reflexivity|]. split; [exact A|exact B].
Qed.

Lemma loop_before_x s : forall v t, no_seps s = s -> numeric v -> term_loop O X s v (one O) false false = inl t ->
  (numeric s /\ term_finish O X (v ++ s) (one O) false false = inl t) \/
  (exists n r w, s = n ++ ch "x" :: r /\ numeric n /\ coeff_at_x X (v ++ n) (one O) = inl w /\ no_seps r = r /\ term_loop O X r [] w true false = inl t).
Proof.
  induction s as [|x s IH]; intros v t Hs Hv H; cbn [term_loop] in H.
  - left. rewrite app_nil_r. split; [reflexivity|exact H].
  - unfold no_seps in Hs. chars. cbn [filter] in Hs. destruct (is_sep x) eqn:Ex; cbn [negb] in Hs.
    { exfalso. assert (L : length (filter (fun c => negb (is_sep c)) s) <= length s) by (clear; induction s as [|y s IH]; cbn; [lia|destruct (is_sep y); cbn; lia]).
      rewrite Hs in L. cbn in L. lia. }
    injection Hs as Hs. fold (no_seps s) in Hs. destruct (is_numch x) eqn:En.
    + destruct (IH (v ++ [x]) t Hs) as [(A & B)|(n & r & w & -> & A1 & A2 & A3 & B)]; [|exact H| |].
      * unfold numeric in *. chars. rewrite forallb_app. rewrite Hv. cbn. rewrite En. reflexivity.
      * left. rewrite <- app_assoc in B. split; [unfold numeric; chars; cbn [forallb]; rewrite En; exact A|exact B].
      * right. exists (x :: n), r, w. rewrite <- app_assoc in A2. split; [reflexivity|].
        split; [unfold numeric; chars; cbn [forallb]; rewrite En; exact A1|]. split; [exact A2|]. split; [exact A3|exact B].
    + destruct (N.eqb_spec x (ch "x")) as [->|].
      * destruct (coeff_at_x X v (one O)) as [w|] eqn:Ec; [|discriminate]. right. exists [], s, w. rewrite app_nil_r.
        split; [reflexivity|]. split; [reflexivity|]. split; [exact Ec|]. split; [exact Hs|exact H].
      * destruct (x =? ch "^")%N; discriminate.
Qed.

Lemma term_text_complete s t : no_seps s = s -> term_from_str O X s = inl t -> term_text O X s t.
Proof.
  intros Hs H. unfold term_from_str in H. destruct (loop_before_x s [] t Hs eq_refl H) as [(A & B)|(n & r & w & -> & A1 & A2 & A3 & B)].
  - cbn [app] in B. unfold term_finish in B. destruct (parse X s) eqn:E; [|discriminate]. injection B as <-. constructor; assumption.
  - cbn [app] in A2. apply coeff_at_text in A2; [|exact A1].
    destruct (loop_after_x r [] w false t A3 eq_refl B) as [(C & D)|(_ & e1 & e2 & -> & C1 & C2 & D)].
    + cbn [app] in D. unfold term_finish in D. destruct r as [|c r].
      * injection D as <-. change [ch "x"] with (lit "x"). constructor. exact A2.
      * destruct (parse_usize (c :: r)) eqn:E; [|discriminate]. injection D as <-.
        change (ch "x" :: c :: r) with (lit "x" ++ c :: r). apply tt_xn; [exact A2|exact C|discriminate|exact E].
    + cbn [app] in D. unfold term_finish in D. 
      change (ch "x" :: e1 ++ ch "^" :: e2) with (lit "x" ++ e1 ++ lit "^" ++ e2).
      destruct (e1 ++ e2) as [|c r] eqn:Ee; [discriminate|]. destruct (parse_usize (c :: r)) eqn:E; [|discriminate]. injection D as <-.
      apply tt_pow; [exact A2|exact C1|exact C2|rewrite Ee; discriminate|rewrite Ee; exact E].
Qed.
End C36.

Lemma no_seps_idem s : no_seps (no_seps s) = no_seps s.
Proof.
  unfold no_seps. chars. induction s as [|c s IH]; [reflexivity|]. cbn [filter]. destruct (is_sep c) eqn:E; cbn [negb]; [exact IH|].
  cbn [filter]. rewrite E. cbn [negb]. rewrite IH. reflexivity.
Qed.

(** Exactly the language [term_text] is accepted, with that meaning. *)
Theorem C36_term_language : forall T (O : num T) (X : txt T) s t,
  term_from_str O X s = inl t <-> term_text O X (no_seps s) t.
Proof.
  intros T O X s t. rewrite C36_separators_ignored. split.
  - apply term_text_complete, no_seps_idem.
  - apply term_text_sound.
Qed.

(** Decimal integers: an optional sign and digits denote their value, if it fits. *)
Definition digits (s : str) : Prop := s <> [] /\ forallb is_digit s = true.
Theorem C36_integer_text : forall t s, digits s ->
  parse (int_txt t) s = (if in_range t (dval 0 s) then Some (mk_int t (dval 0 s)) else None) /\
  parse (int_txt t) (ch "+" :: s) = (if in_range t (dval 0 s) then Some (mk_int t (dval 0 s)) else None) /\
  (signed t = true ->
   parse (int_txt t) (ch "-" :: s) = (if in_range t (- dval 0 s) then Some (mk_int t (- dval 0 s)) else None)).
Proof.
  intros t s [H0 Hd]. cbn [parse int_txt]. split; [|split].
  - rewrite parse_Z_unsigned by assumption. destruct (in_range t (dval 0 s)); reflexivity.
  - rewrite parse_Z_plus by assumption. destruct (in_range t (dval 0 s)); reflexivity.
  - intros Ht. rewrite parse_Z_minus by assumption. destruct (in_range t (- dval 0 s)); reflexivity.
Qed.

(** ... and nothing else is an integer. *)
Theorem C36_integer_text_only : forall t s z, parse_Z t s = Some z ->
  exists ds, digits ds /\
    ((s = ds \/ s = ch "+" :: ds) /\ z = dval 0 ds \/ signed t = true /\ s = ch "-" :: ds /\ z = (- dval 0 ds)%Z) /\
    in_range t z = true.
Proof.
  intros t s z H. assert (H0 : in_range t 0 = true) by (unfold in_range; pose proof (imin_max t); lia).
  assert (Hp : forall u, u <> [] -> parse_digits t 1 0 u = Some z -> digits u /\ z = dval 0 u /\ in_range t z = true).
  { intros u Hu E. rewrite (parse_digits_pos t u 0 ltac:(lia) H0) in E. destruct (forallb is_digit u) eqn:Eu; [|discriminate].
    destruct (in_range t (dval 0 u)) eqn:Er; [|discriminate]. injection E as <-. split; [split; assumption|]. auto. }
  assert (Hn : forall u, u <> [] -> parse_digits t (-1) 0 u = Some z -> digits u /\ z = (- dval 0 u)%Z /\ in_range t z = true).
  { intros u Hu E. change 0%Z with (- 0)%Z in E. rewrite (parse_digits_neg t u 0 ltac:(lia) H0) in E. destruct (forallb is_digit u) eqn:Eu; [|discriminate].
    destruct (in_range t (- dval 0 u)) eqn:Er; [|discriminate]. injection E as <-. split; [split; assumption|]. auto. }
  unfold parse_Z in H. destruct s as [|c s]; [discriminate|]. destruct s as [|c' s].
  - destruct ((c =? ch "+")%N || (c =? ch "-")%N); [discriminate|].
    destruct (Hp [c] ltac:(discriminate) H) as (A & B & C). exists [c]. split; [exact A|]. split; [|exact C]. left. auto.
  - destruct (N.eqb_spec c (ch "+")) as [->|_].
    + destruct (Hp (c' :: s) ltac:(discriminate) H) as (A & B & C). exists (c' :: s). split; [exact A|]. split; [|exact C]. left. auto.
    + destruct (N.eqb_spec c (ch "-")) as [->|_]; cbn [andb] in H; [destruct (signed t) eqn:Es|].
      * destruct (Hn (c' :: s) ltac:(discriminate) H) as (A & B & C). exists (c' :: s). split; [exact A|]. split; [|exact C]. right. auto.
      * destruct (Hp (ch "-" :: c' :: s) ltac:(discriminate) H) as ([_ A] & B & C). cbn [forallb] in A. change (is_digit (ch "-")) with false in A. discriminate.
      * destruct (Hp (c :: c' :: s) ltac:(discriminate) H) as (A & B & C). exists (c :: c' :: s). split; [exact A|]. split; [|exact C]. left. auto.
Qed.

Example C36_case :
  term_from_str (int_num true I32) (int_txt I32) (lit "- 1_2,3 x ^ 4 5") = inl (TTerm (mk_int I32 (-123)) 45) /\
  term_from_str (int_num true I32) (int_txt I32) (lit "-x") = inl (TTerm (mk_int I32 (-1)) 1) /\
  term_from_str (int_num true U8) (int_txt U8) (lit "256x") = inr CoeffCouldNotBeParsed.
Proof. split; [|split]; vm_compute; reflexivity. Qed.

(** ** C37 *)

(** Every digit string directly after x is read as the exponent, and digits on both sides
    of the caret are joined. *)
Theorem C37_no_caret_refuted : forall T (O : num T) (X : txt T) a b, digits a -> digits b ->
  ((dval 0 a <= Z.of_N USIZE_MAX)%Z -> term_from_str O X (lit "x" ++ a) = inl (term_new O (one O) (Z.to_N (dval 0 a)))) /\
  ((dval 0 (a ++ b) <= Z.of_N USIZE_MAX)%Z ->
     term_from_str O X (lit "x" ++ a ++ lit "^" ++ b) = inl (term_new O (one O) (Z.to_N (dval 0 (a ++ b))))).
Proof.
  intros T O X a b [Ha0 Ha] [Hb0 Hb].
  assert (Q : forall u, u <> [] -> forallb is_digit u = true -> (dval 0 u <= Z.of_N USIZE_MAX)%Z -> parse_usize u = Some (Z.to_N (dval 0 u))).
  { intros u Hu Hd Hm. unfold parse_usize. rewrite parse_Z_unsigned by assumption.
    pose proof (dval_mono u Hd 0 ltac:(lia)).
    assert (E : in_range Usize (dval 0 u) = true) by (unfold in_range, imin, imax; cbn [signed bits]; unfold USIZE_MAX in Hm; lia).
    rewrite E. reflexivity. }
  assert (N : forall u, forallb is_digit u = true -> numeric u).
  { intros u Hu. unfold numeric. chars. rewrite forallb_forall in *. intros c Hc. apply (digit_not_sign c), Hu, Hc. }
  split; intros Hm.
  - apply term_text_sound. apply (tt_xn O X [] (one O) a); [constructor|apply N, Ha|exact Ha0|apply Q; assumption].
  - apply term_text_sound. apply (tt_pow O X [] (one O) a b); [constructor|apply N, Ha|apply N, Hb|destruct a; [congruence|discriminate]|].
    apply Q; [destruct a; [congruence|discriminate]|rewrite forallb_app, Ha, Hb; reflexivity|exact Hm].
Qed.

(** The error for an unparsable exponent is never reported; CoeffCouldNotBeParsed is. *)
Theorem C37_degree_error_never : forall T (O : num T) (X : txt T) s, term_from_str O X s <> inr DegreeCouldNotBeParsed.
Proof.
  intros T O X s. unfold term_from_str.
  assert (G : forall v c sx sc, term_loop O X s v c sx sc <> inr DegreeCouldNotBeParsed); [|apply G].
  induction s as [|x s IH]; intros v c sx sc H; cbn [term_loop] in H.
  - unfold term_finish in H. destruct sx.
    + destruct v; [destruct sc; discriminate|]. destruct (parse_usize _); discriminate.
    + destruct (parse X v); discriminate.
  - destruct (is_sep x); [eapply IH, H|]. destruct (is_numch x); [eapply IH, H|]. destruct (x =? ch "x")%N.
    + destruct sx; [discriminate|]. destruct (coeff_at_x X v c) as [w|e] eqn:E; [eapply IH, H|]. injection H as ->.
      unfold coeff_at_x in E. destruct v; [discriminate|]. destruct (parse X _); discriminate.
    + destruct (x =? ch "^")%N; [|discriminate]. destruct sc; [discriminate|]. destruct (negb sx); [discriminate|]. eapply IH, H.
Qed.

(** 2x3 is read as 2x^3, x5^2 as x^52; a huge exponent is reported as a coefficient error. *)
Example C37_case :
  term_from_str (int_num true I32) (int_txt I32) (lit "2x3") = inl (TTerm (mk_int I32 2) 3) /\
  term_from_str (int_num true I32) (int_txt I32) (lit "x5^2") = inl (TTerm (mk_int I32 1) 52) /\
  term_from_str (int_num true I32) (int_txt I32) (lit "x^18446744073709551616") = inr CoeffCouldNotBeParsed.
Proof. split; [|split]; vm_compute; reflexivity. Qed.
