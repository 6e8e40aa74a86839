(** /repo/src/polynomial/sparsepolynomial.rs: [SparsePolynomial<N>].

    [BTreeMap<usize, N>] is modelled as an association list with strictly increasing keys;
    iteration is in list order.  Zero-valued entries are possible. *)

From Coq Require Import List NArith ZArith Bool.
From Verif Require Import Base Num Terms Dense.
Import ListNotations.

(** BTreeMap operations *)
Definition bmap (T : Type) := list (N * T).

(** BTreeMap::get *)
Fixpoint m_get {T} (k : N) (m : bmap T) : option T :=
  match m with
  | [] => None
  | (k', v) :: m' => if (k =? k')%N then Some v else m_get k m'
  end.

(** BTreeMap::insert (replaces an existing value) *)
Fixpoint m_insert {T} (k : N) (v : T) (m : bmap T) : bmap T :=
  match m with
  | [] => [(k, v)]
  | (k', v') :: m' =>
    match N.compare k k' with
    | Lt => (k, v) :: m
    | Eq => (k, v) :: m'
    | Gt => (k', v') :: m_insert k v m'
    end
  end.

Section Sparse.
Context {T : Type} (O : num T).

(** [match m.get_mut(&k) { None => m.insert(k, none), Some(val) => *val = some(val) }] *)
Definition m_upsert (m : bmap T) (k : N) (none : res T) (some : T -> res T) : res (bmap T) :=
  match m_get k m with
  | None => v <- none ;; Ok (m_insert k v m)
  | Some v => v' <- some v ;; Ok (m_insert k v' m)
  end.

(** sparsepolynomial.rs 36-45: inner loop of map_mul *)
Definition map_mul_row (rdeg : N) (rterm : T) (terms lhs : bmap T) : res (bmap T) :=
  foldM (fun terms kv =>
    d <- uadd (n_chk O) rdeg (fst kv) ;;
    m_upsert terms d (mul O rterm (snd kv)) (fun v => p <- mul O rterm (snd kv) ;; add O v p))
    terms lhs.

(** sparsepolynomial.rs 26-48: map_mul.  817-821, 828-830, 839-841, 848-850 (Mul, MulAssign),
    459-463 (borrow_mul). *)
Definition sparse_mul (lhs rhs : bmap T) : res (bmap T) :=
  foldM (fun terms kv =>
    if is_zero O (snd kv) then Ok terms else map_mul_row (fst kv) (snd kv) terms lhs) [] rhs.

(** sparsepolynomial.rs 50-64: map_sub_w_scale *)
Definition map_sub_w_scale (lhs rhs : bmap T) (scale : T) : res (bmap T) :=
  foldM (fun lhs kv =>
    m_upsert lhs (fst kv)
      (n <- neg O (snd kv) ;; mul O n scale)
      (fun l => p <- mul O (snd kv) scale ;; sub O l p)) lhs rhs.

(** sparsepolynomial.rs 75-80: the loop of degree *)
Fixpoint deg_loop (max_term : T) (max_degree : N) (m : bmap T) : T * N :=
  match m with
  | [] => (max_term, max_degree)
  | (d, c) :: m' =>
    if (max_degree <? d)%N && negb (is_zero O c) then deg_loop c d m'
    else deg_loop max_term max_degree m'
  end.

(** sparsepolynomial.rs 66-87: degree *)
Definition sparse_degree (m : bmap T) : degree :=
  match m with
  | [] => NegInf
  | (d, c) :: m' =>
    let '(mt, md) := deg_loop c d m' in
    if is_zero O mt then NegInf else Num md
  end.
Definition sparse_is_zero (m : bmap T) : bool := degree_is_zero (sparse_degree m).

(** sparsepolynomial.rs 89-100: first_term *)
Definition sparse_first_term (m : bmap T) : term T :=
  match sparse_degree m with
  | NegInf => ZeroTerm
  | Num d => match m_get d m with None => ZeroTerm | Some v => term_new O v d end
  end.

(** sparsepolynomial.rs 103-108: term_with_degree *)
Definition sparse_term_with_degree (m : bmap T) (d : N) : term T :=
  match m_get d m with None => ZeroTerm | Some c => term_new O c d end.

(** sparsepolynomial.rs 317-325: ordered_term_iter; 110-112: terms_as_vec *)
Definition sparse_terms (m : bmap T) : list (T * N) :=
  map (fun kv => (snd kv, fst kv)) (filter (fun kv => negb (is_zero O (snd kv))) (rev m)).

(** sparsepolynomial.rs 139-143, 156-158 *)
Definition sparse_zero : bmap T := [].

(** sparsepolynomial.rs 272-285: add_term *)
Definition sparse_add_term (m : bmap T) (c : T) (d : N) : res (bmap T) :=
  if is_zero O c then Ok m
  else m_upsert m d (Ok c) (fun v => add O v c).

(** sparsepolynomial.rs 165-167: try_add_term *)
Definition sparse_try_add_term (m : bmap T) (c : T) (d : N) : mutres (bmap T) :=
  m' <- sparse_add_term m c d ;; Ok (m', None).

(** sparsepolynomial.rs 169-188: try_sub_term *)
Definition sparse_try_sub_term (m : bmap T) (c : T) (d : N) : mutres (bmap T) :=
  if is_zero O c then Ok (m, None)
  else match m_get d m with
       | None =>
         if negb (can_negate O) then Ok (m, Some CanNotNegate)
         else v <- sub O (zero O) c ;; Ok (m_insert d v m, None)
       | Some v => v' <- sub O v c ;; Ok (m_insert d v' m, None)
       end.

(** sparsepolynomial.rs 264-270: from_terms *)
Definition sparse_from_terms (ts : list (T * N)) : res (bmap T) :=
  foldM (fun m ct => sparse_add_term m (fst ct) (snd ct)) [] ts.

(** sparsepolynomial.rs 311-313: trim (feature sparse_poly_trim) *)
Definition sparse_trim (m : bmap T) : bmap T := filter (fun kv => negb (is_zero O (snd kv))) m.

(** sparsepolynomial.rs 350-354: loop of From<Vec<N>>; [i] is the index of the head. *)
Fixpoint from_vec_loop (deg : N) (i : nat) (l : list T) (m : bmap T) : res (bmap T) :=
  match l with
  | [] => Ok m
  | v :: l' =>
    if is_zero O v then from_vec_loop deg (S i) l' m
    else k <- usub (n_chk O) deg (N.of_nat i) ;; from_vec_loop deg (S i) l' (m_insert k v m)
  end.

(** sparsepolynomial.rs 346-357: From<Vec<N>> *)
Definition sparse_from_vec (l : list T) : res (bmap T) :=
  match l with
  | [] => Ok []
  | _ => deg <- usub (n_chk O) (len l) 1 ;; from_vec_loop deg 0 l []
  end.

(** sparsepolynomial.rs 374-380: eval *)
Definition sparse_eval (m : bmap T) (point : T) : res T :=
  foldM (fun sum kv => pw <- upow O point (fst kv) ;; p <- mul O (snd kv) pw ;; add O sum p) (zero O) m.

(** sparsepolynomial.rs 400-413: derivative *)
Definition sparse_derivative (m : bmap T) : res (bmap T) :=
  foldM (fun terms kv =>
    if negb (is_zero O (snd kv)) && negb (fst kv =? 0)%N then
      k <- usub (n_chk O) (fst kv) 1 ;;
      n <- expect (of_exact O (fst kv)) ;;
      v <- mul O (snd kv) n ;;
      Ok (m_insert k v terms)
    else Ok terms) [] m.

(** sparsepolynomial.rs 440-452: integral *)
Definition sparse_integral (m : bmap T) : res (bmap T) :=
  foldM (fun terms kv =>
    k <- uadd (n_chk O) (fst kv) 1 ;;
    n <- expect (of_exact O k) ;;
    v <- div O (snd kv) n ;;
    Ok (m_insert k v terms)) [] m.

(** sparsepolynomial.rs 477-495: pow *)
Fixpoint sparse_pow (fuel : nat) (p : bmap T) (e : N) : res (bmap T) :=
  match fuel with
  | 0%nat => Fuel
  | S f =>
    if (e =? 0)%N then Ok [(0%N, one O)]
    else if (e =? 1)%N then Ok p
    else if (e =? 2)%N then sparse_mul p p
    else if (e mod 2 =? 0)%N then
      h <- sparse_pow f p (e / 2) ;; sparse_pow f h 2
    else
      h <- sparse_pow f p (e - 1) ;; sparse_mul p h
  end.

(** sparsepolynomial.rs 547-559: loop of div_mod *)
Fixpoint sparse_div_loop (fuel : nat) (rhs : bmap T) (rhs_first : T) (rhs_deg offset : N)
    (scale : T) (self_degree : N) (remainder dv : bmap T) : res (bmap T * bmap T) :=
  match fuel with
  | 0%nat => Fuel
  | S f =>
    if (rhs_deg <=? self_degree)%N then
      remainder' <- map_sub_w_scale remainder rhs scale ;;
      dv' <- sparse_add_term dv scale offset ;;
      match sparse_first_term remainder' with
      | ZeroTerm => Ok (dv', remainder')
      | TTerm c d =>
        scale' <- div O c rhs_first ;;
        sparse_div_loop f rhs rhs_first rhs_deg offset scale' d remainder' dv'
      end
    else Ok (dv, remainder)
  end.

(** sparsepolynomial.rs 517-562: div_mod *)
Definition sparse_div_mod (fuel : nat) (p rhs : bmap T) : res (bmap T * bmap T) :=
  match sparse_first_term rhs with
  | ZeroTerm => Panic PZeroPoly
  | TTerm rhs_first rhs_deg =>
    match sparse_first_term p with
    | ZeroTerm => Ok ([], p)
    | TTerm c d =>
      if (d <? rhs_deg)%N then Ok ([], p)
      else
        scale <- div O c rhs_first ;;
        offset <- usub (n_chk O) d rhs_deg ;;
        sparse_div_loop fuel rhs rhs_first rhs_deg offset scale d p []
    end
  end.

(** sparsepolynomial.rs 601-612 and 650-661: loops of Rem and RemAssign (the same) *)
Fixpoint sparse_rem_loop (fuel : nat) (rhs : bmap T) (rhs_first : T) (rhs_deg : N)
    (scale : T) (self_degree : N) (remainder : bmap T) : res (bmap T) :=
  match fuel with
  | 0%nat => Fuel
  | S f =>
    if (rhs_deg <=? self_degree)%N then
      remainder' <- map_sub_w_scale remainder rhs scale ;;
      match sparse_first_term remainder' with
      | ZeroTerm => Ok remainder'
      | TTerm c d =>
        scale' <- div O c rhs_first ;;
        sparse_rem_loop f rhs rhs_first rhs_deg scale' d remainder'
      end
    else Ok remainder
  end.

(** sparsepolynomial.rs 579-615: Rem; 630-662: RemAssign *)
Definition sparse_rem (fuel : nat) (p rhs : bmap T) : res (bmap T) :=
  match sparse_first_term rhs with
  | ZeroTerm => Panic PZeroPoly
  | TTerm rhs_first rhs_deg =>
    match sparse_first_term p with
    | ZeroTerm => Ok p
    | TTerm c d =>
      if (d <? rhs_deg)%N then Ok p
      else
        scale <- div O c rhs_first ;;
        sparse_rem_loop fuel rhs rhs_first rhs_deg scale d p
    end
  end.

(** sparsepolynomial.rs 682-693: eq *)
Definition sparse_eq (a b : bmap T) : bool :=
  forallb (fun kv => match m_get (fst kv) b with
                     | None => is_zero O (snd kv) | Some v => eqb O (snd kv) v end) a
  && forallb (fun kv => match m_get (fst kv) a with
                     | None => is_zero O (snd kv) | Some v => eqb O (snd kv) v end) b.

(** sparsepolynomial.rs 702-708: neg *)
Definition sparse_neg (m : bmap T) : res (bmap T) :=
  foldM (fun terms kv => v <- neg O (snd kv) ;; Ok (m_insert (fst kv) v terms)) [] m.

(** sparsepolynomial.rs 717-729: Sub; 757-768: SubAssign *)
Definition sparse_sub (a b : bmap T) : res (bmap T) :=
  foldM (fun m kv => m_upsert m (fst kv) (neg O (snd kv)) (fun v => sub O v (snd kv))) a b.

(** sparsepolynomial.rs 738-750: Sub<Polynomial<N>> *)
Definition sparse_sub_dense (a : bmap T) (b : list T) : res (bmap T) :=
  ts <- dense_terms O b ;;
  foldM (fun m ct => m_upsert m (snd ct) (neg O (fst ct)) (fun v => sub O v (fst ct))) a ts.

(** sparsepolynomial.rs 797-808: AddAssign *)
Definition sparse_add_assign (a b : bmap T) : res (bmap T) :=
  foldM (fun m kv => m_upsert m (fst kv) (Ok (snd kv)) (fun v => add O v (snd kv))) a b.

(** sparsepolynomial.rs 777-793: Add: copies [rhs], then adds the entries of [self]. *)
Definition sparse_add (a b : bmap T) : res (bmap T) :=
  let terms := fold_left (fun m kv => m_insert (fst kv) (snd kv) m) b [] in
  foldM (fun m kv => m_upsert m (fst kv) (Ok (snd kv)) (fun v => add O v (snd kv))) terms a.

(** sparsepolynomial.rs 856-863: Mul<N>; 880-887: Div<N> (rebuild the map) *)
Definition sparse_map_rebuild (f : T -> res T) (m : bmap T) : res (bmap T) :=
  foldM (fun terms kv => v <- f (snd kv) ;; Ok (m_insert (fst kv) v terms)) [] m.
Definition sparse_scale (m : bmap T) (c : T) := sparse_map_rebuild (fun x => mul O x c) m.
Definition sparse_div_scalar (m : bmap T) (c : T) := sparse_map_rebuild (fun x => div O x c) m.

(** sparsepolynomial.rs 867-871: MulAssign<N>; 894-898: DivAssign<N> (in place) *)
Definition sparse_map_inplace (f : T -> res T) (m : bmap T) : res (bmap T) :=
  mapM (fun kv => v <- f (snd kv) ;; Ok (fst kv, v)) m.
Definition sparse_scale_assign (m : bmap T) (c : T) := sparse_map_inplace (fun x => mul O x c) m.
Definition sparse_div_scalar_assign (m : bmap T) (c : T) := sparse_map_inplace (fun x => div O x c) m.

(** sparsepolynomial.rs 904-915 Shl, 936-949 Shr; 919-930 ShlAssign and 953-966 ShrAssign
    run the same code on [self.terms]. *)
Fixpoint sparse_shift (fuel : nat) (left : bool) (m : bmap T) (k : Z) : res (bmap T) :=
  match fuel with
  | 0%nat => Fuel
  | S f =>
    if (k <? 0)%Z then k' <- neg_i32 (n_chk O) k ;; sparse_shift f (negb left) m k'
    else
      let rhs := Z.to_N k in
      if left then
        foldM (fun terms kv => d <- uadd (n_chk O) (fst kv) rhs ;; Ok (m_insert d (snd kv) terms)) [] m
      else
        foldM (fun terms kv =>
          if (rhs <=? fst kv)%N then d <- usub (n_chk O) (fst kv) rhs ;; Ok (m_insert d (snd kv) terms)
          else Ok terms) [] m
  end.

End Sparse.
