(** Text: /repo/src/terms.rs 37-160 (Term::from_str, TermTokenizer), /repo/src/strings.rs
    (Display and FromStr of polynomials), /repo/src/polynomial/monomial.rs 328-339 and
    /repo/src/polynomial/integral.rs 46-58 (Display), and the decimal conversions of core.

    A Rust string is the list of its characters (code points, as [N]); offsets into it are
    byte offsets into its UTF-8 encoding. *)

From Coq Require Import String Ascii List NArith ZArith Bool.
From Verif Require Import Base Num Terms Dense Sparse Mono Bino Trino PolyMath.
Import ListNotations.

Definition str := list N.
(** Literals. *)
Definition lit (s : string) : str := map N_of_ascii (list_ascii_of_string s).
Definition ch (c : ascii) : N := N_of_ascii c.
Arguments ch c%char_scope. Arguments lit s%string_scope.

(** Bytes taken by a character in UTF-8. *)
Definition clen (c : N) : N :=
  if (c <? 128)%N then 1 else if (c <? 2048)%N then 2 else if (c <? 65536)%N then 3 else 4.
(** [str::len] *)
Fixpoint slen (s : str) : N := match s with [] => 0%N | c :: s' => (clen c + slen s')%N end.

(** [&s[a..]] and [&s[..b]]: panics unless the offset is on a character boundary. *)
Fixpoint drop_bytes (a : N) (s : str) : res str :=
  if (a =? 0)%N then Ok s
  else match s with
       | [] => Panic PIndex
       | c :: s' => if (clen c <=? a)%N then drop_bytes (a - clen c) s' else Panic PIndex
       end.
Fixpoint take_bytes (b : N) (s : str) : res str :=
  if (b =? 0)%N then Ok []
  else match s with
       | [] => Panic PIndex
       | c :: s' => if (clen c <=? b)%N then r <- take_bytes (b - clen c) s' ;; Ok (c :: r) else Panic PIndex
       end.
(** [&s[a..b]] *)
Definition slice (s : str) (a b : N) : res str :=
  if (a <=? b)%N then r <- drop_bytes a s ;; take_bytes (b - a) r else Panic PIndex.

(** [char::is_whitespace]: the Unicode White_Space property. *)
Definition is_ws (c : N) : bool :=
  (((9 <=? c) && (c <=? 13)) || (c =? 32) || (c =? 133) || (c =? 160) || (c =? 5760)
   || ((8192 <=? c) && (c <=? 8202)) || (c =? 8232) || (c =? 8233) || (c =? 8239)
   || (c =? 8287) || (c =? 12288))%N.

(** *** core: decimal conversions *)

Definition digit (d : N) : N := (48 + d)%N.
(** Decimal digits of [n], most significant first ([fmt::Display] of the unsigned types). *)
Fixpoint digits_loop (fuel : nat) (n : N) (acc : str) : str :=
  match fuel with
  | O => acc
  | S f => let acc' := digit (n mod 10) :: acc in
           if (n / 10 =? 0)%N then acc' else digits_loop f (n / 10) acc'
  end.
Definition show_N (n : N) : str := digits_loop (S (N.to_nat (N.size n))) n [].
(** [fmt::Display] of the integer types. *)
Definition show_Z (z : Z) : str :=
  if (z <? 0)%Z then ch "-" :: show_N (Z.to_N (- z)) else show_N (Z.to_N z).

(** [char::to_digit(10)] *)
Definition to_digit (c : N) : option Z :=
  if ((48 <=? c) && (c <=? 57))%N then Some (Z.of_N c - 48)%Z else None.
(** core from_str_radix: [checked_mul(10)] then [checked_add]/[checked_sub] of each digit. *)
Definition checked (t : ity) (z : Z) : option Z := if in_range t z then Some z else None.
Fixpoint parse_digits (t : ity) (sgn : Z) (acc : Z) (s : str) : option Z :=
  match s with
  | [] => Some acc
  | c :: s' =>
    match checked t (acc * 10) with
    | None => None
    | Some m =>
      match to_digit c with
      | None => None
      | Some x => match checked t (m + sgn * x) with None => None | Some r => parse_digits t sgn r s' end
      end
    end
  end.
Definition parse_Z (t : ity) (s : str) : option Z :=
  match s with
  | [] => None
  | [c] => if (c =? ch "+")%N || (c =? ch "-")%N then None else parse_digits t 1 0 s
  | c :: s' =>
    if (c =? ch "+")%N then parse_digits t 1 0 s'
    else if (c =? ch "-")%N && signed t then parse_digits t (-1) 0 s'
    else parse_digits t 1 0 s
  end.

(** [<usize as FromStr>::from_str] and [<usize as Display>::fmt] *)
Definition parse_usize (s : str) : option N :=
  match parse_Z Usize s with Some z => Some (Z.to_N z) | None => None end.

(** A numeric type with [Display] and [FromStr]. *)
Record txt (T : Type) := MkTxt { show : T -> str; parse : str -> option T }.
Arguments MkTxt {T}. Arguments show {T}. Arguments parse {T}.
Definition int_txt (t : ity) : txt (int t) :=
  MkTxt (fun a => show_Z (ival a))
        (fun s => match parse_Z t s with Some z => Some (mk_int t z) | None => None end).

(** *** terms.rs: Term::from_str *)

(** err.rs 10-19: TermFromStringError *)
Inductive term_err :=
| MoreThanOneX | CoeffCouldNotBeParsed | UnexpectedChar (c : N) | CaretWithoutXInFront
| CaretWithoutDegree | MultipleCarets | DegreeCouldNotBeParsed.
(** err.rs 21-26: PolynomialFromStringError *)
Inductive poly_err := TermFromString (e : term_err) | AddingTerm (e : try_add_err) | NoTermsFound.

(** terms.rs 54: separators *)
Definition is_sep (c : N) : bool := (c =? ch " ")%N || (c =? ch ",")%N || (c =? ch "_")%N.
(** terms.rs 57: '+' | '-' | '.' | '0'..='9' *)
Definition is_numch (c : N) : bool :=
  (c =? ch "+")%N || (c =? ch "-")%N || (c =? ch ".")%N || ((ch "0" <=? c) && (c <=? ch "9"))%N.

Section TermFromStr.
Context {T : Type} (O : num T) (X : txt T).

(** terms.rs 62-74: the coefficient at an 'x' *)
Definition coeff_at_x (num_vec : str) (coeff : T) : T + term_err :=
  match num_vec with
  | [] => inl coeff
  | _ =>
    let num_vec' := match num_vec with
                    | [c] => if (c =? ch "-")%N || (c =? ch "+")%N then [c; ch "1"] else num_vec
                    | _ => num_vec
                    end in
    match parse X num_vec' with Some v => inl v | None => inr CoeffCouldNotBeParsed end
  end.

(** terms.rs 91-112: the end of the string *)
Definition term_finish (num_vec : str) (coeff : T) (seen_x seen_caret : bool) : term T + term_err :=
  if seen_x then
    match num_vec with
    | [] => if seen_caret then inr CaretWithoutDegree else inl (term_new O coeff 1)
    | _ => match parse_usize num_vec with
           | Some d => inl (term_new O coeff d)
           | None => inr CoeffCouldNotBeParsed
           end
    end
  else match parse X num_vec with
       | Some v => inl (term_new O v 0)
       | None => inr CoeffCouldNotBeParsed
       end.

(** terms.rs 48-90: the loop over the characters *)
Fixpoint term_loop (s : str) (num_vec : str) (coeff : T) (seen_x seen_caret : bool) : term T + term_err :=
  match s with
  | [] => term_finish num_vec coeff seen_x seen_caret
  | c :: s' =>
    if is_sep c then term_loop s' num_vec coeff seen_x seen_caret
    else if is_numch c then term_loop s' (num_vec ++ [c]) coeff seen_x seen_caret
    else if (c =? ch "x")%N then
      if seen_x then inr MoreThanOneX
      else match coeff_at_x num_vec coeff with
           | inr e => inr e
           | inl v => term_loop s' [] v true seen_caret
           end
    else if (c =? ch "^")%N then
      if seen_caret then inr MultipleCarets
      else if negb seen_x then inr CaretWithoutXInFront
      else term_loop s' num_vec coeff seen_x true
    else inr (UnexpectedChar c)
  end.

(** terms.rs 43-113: from_str *)
Definition term_from_str (s : str) : term T + term_err := term_loop s [] (one O) false false.
End TermFromStr.

(** *** terms.rs: TermTokenizer *)

(** terms.rs 116-121: the characters left with their byte offsets, and the fields. *)
Record tokst := MkTok { tk_chars : list (N * N); tk_seen : bool; tk_start : N; tk_len : N }.

(** [str::char_indices] *)
Fixpoint char_indices (i : N) (s : str) : list (N * N) :=
  match s with [] => [] | c :: s' => (i, c) :: char_indices (i + clen c) s' end.

(** terms.rs 124-131: new *)
Definition tok_new (s : str) : tokst := MkTok (char_indices 0 s) false 0 (slen s).

Definition is_sign (c : N) : bool := (c =? ch "+")%N || (c =? ch "-")%N.

(** terms.rs 137-159: next; [cs] is [char_indices]. *)
Fixpoint tok_next_loop (cs : list (N * N)) (seen : bool) (start len : N) : option (N * N) * tokst :=
  match cs with
  | [] =>
    if negb (start =? len)%N then (Some (start, len), MkTok [] seen len len)
    else (None, MkTok [] seen start len)
  | (index, c) :: cs' =>
    if is_sign c then
      if seen then (Some (start, index), MkTok cs' seen index len)
      else tok_next_loop cs' true start len
    else if negb seen && negb (is_ws c) then tok_next_loop cs' true start len
    else tok_next_loop cs' seen start len
  end.
Definition tok_next (k : tokst) : option (N * N) * tokst :=
  tok_next_loop (tk_chars k) (tk_seen k) (tk_start k) (tk_len k).

(** The ranges produced by iterating until [None]. *)
Fixpoint tok_ranges (fuel : nat) (k : tokst) : res (list (N * N)) :=
  match fuel with
  | O => Fuel
  | S f => match tok_next k with
           | (None, _) => Ok []
           | (Some r, k') => rs <- tok_ranges f k' ;; Ok (r :: rs)
           end
  end.
(** Enough rounds: each call consumes a character, or is one of the last two. *)
Definition tok_fuel (s : str) : nat := S (S (length s)).

(** *** strings.rs 45-66: FromStr for a polynomial type; [z] is its [zero()].
    The iterator is lazy, but producing a range has no effect besides advancing it, so the
    ranges are computed first. *)
Section PolyFromStr.
Context {T P : Type} (O : num T) (X : txt T) (S : mutpoly T P).

Fixpoint from_str_loop (s : str) (rs : list (N * N)) (p : P) : res (P + poly_err) :=
  match rs with
  | [] => Ok (inl p)
  | (a, b) :: rs' =>
    tok <- slice s a b ;;
    match term_from_str O X tok with
    | inr e => Ok (inr (TermFromString e))
    | inl ZeroTerm => from_str_loop s rs' p
    | inl (TTerm c d) =>
      r <- s_add S p c d ;;
      match snd r with
      | Some e => Ok (inr (AddingTerm e))
      | None => from_str_loop s rs' (fst r)
      end
    end
  end.
Definition poly_from_str (z : P) (s : str) : res (P + poly_err) :=
  rs <- tok_ranges (tok_fuel s) (tok_new s) ;;
  match rs with
  | [] => Ok (inr NoTermsFound)
  | _ => from_str_loop s rs z
  end.
End PolyFromStr.

(** *** strings.rs 71-113: writing terms.  The result is the text appended to the formatter. *)
Section Display.
Context {T : Type} (O : num T) (X : txt T).

(** strings.rs 85-89 and 108-112 *)
Definition show_x (d : N) : str := if (1 <? d)%N then lit "x^" ++ show_N d else lit "x".

(** [One::is_one]: [*self == Self::one()] (num-traits) *)
Definition is_one (c : T) : bool := eqb O c (one O).

(** strings.rs 71-90: write_leading_term *)
Definition leading_term (c : T) (d : N) : str :=
  if (d =? 0)%N then show X c
  else (if is_neg_one O c then lit "-" else if negb (is_one c) then show X c else []) ++ show_x d.

(** strings.rs 92-113: write_trailing_term *)
Definition trailing_term (c : T) (d : N) : res str :=
  let sign := if is_pos O c then lit " + " else lit " - " in
  a <- absv O c ;;
  if (d =? 0)%N then Ok (sign ++ show X a)
  else Ok (sign ++ (if negb (is_one a) then show X a else []) ++ show_x d).

(** strings.rs 17-26: Display, given the items of ordered_term_iter *)
Definition show_terms (ts : list (T * N)) : res str :=
  match ts with
  | [] => Ok (lit "0")
  | (c, d) :: ts' => foldM (fun acc t => s <- trailing_term (fst t) (snd t) ;; Ok (acc ++ s)) (leading_term c d) ts'
  end.

(** fmt_poly!(Polynomial): polynomial.rs 660 *)
Definition dense_show (l : list T) : res str := ts <- dense_terms O l ;; show_terms ts.
(** fmt_poly!(SparsePolynomial): sparsepolynomial.rs 245 *)
Definition sparse_show (m : bmap T) : res str := show_terms (sparse_terms O m).
(** fmt_poly!(LinearBinomial): binomial.rs 290 *)
Definition bino_show (b : bino T) : res str := ts <- bino_terms O b ;; show_terms ts.
(** fmt_poly!(QuadraticTrinomial): trinomial.rs 337 *)
Definition trino_show (b : trino T) : res str := ts <- trino_terms O b ;; show_terms ts.
(** monomial.rs 332-338 *)
Definition mono_show (m : mono T) : str :=
  match mono_as_term O m with
  | TTerm c d => leading_term c d
  | ZeroTerm => lit "0"
  end.

(** poly_from_str!: polynomial.rs 659, sparsepolynomial.rs 244, monomial.rs 326, binomial.rs
    289, trinomial.rs 336 *)
Definition dense_from_str : str -> res (list T + poly_err) := poly_from_str O X (dense_mut O) dense_zero.
Definition sparse_from_str : str -> res (bmap T + poly_err) := poly_from_str O X (sparse_mut O) [].
Definition mono_from_str : str -> res (mono T + poly_err) := poly_from_str O X (mono_mut O) (mono_zero O).
Definition bino_from_str : str -> res (bino T + poly_err) := poly_from_str O X (bino_mut O) (bino_zero O).
Definition trino_from_str : str -> res (trino T + poly_err) := poly_from_str O X (trino_mut O) (trino_zero O).
End Display.
