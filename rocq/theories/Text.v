(** The parts of Rust's [char], [str] and integer-parsing API the code relies on. *)
From Verif Require Export Base.
Open Scope N_scope.

(** char::is_whitespace: the Unicode White_Space property
    (lexer.rs:8, str::trim, str::split_whitespace, and the regex class \s). *)
Definition is_ws (c : char) : bool :=
  ((9 <=? c) && (c <=? 13)) || (c =? 32) || (c =? 133) || (c =? 160) || (c =? 5760)
  || ((8192 <=? c) && (c <=? 8202)) || (c =? 8232) || (c =? 8233) || (c =? 8239)
  || (c =? 8287) || (c =? 12288).

(** char::is_ascii_digit and the pattern '0'..='9' (lexer.rs:114,118) *)
Definition is_digit (c : char) : bool := (48 <=? c) && (c <=? 57).
(** pattern 'A'..='Z' | 'a'..='z' (lexer.rs:134) *)
Definition is_alpha (c : char) : bool := ((65 <=? c) && (c <=? 90)) || ((97 <=? c) && (c <=? 122)).
(** pattern 'A'..='Z' | 'a'..='z' | '_' (lexer.rs:134) and regex [a-zA-Z_] (native.rs:27) *)
Definition is_ident_start (c : char) : bool := is_alpha c || (c =? 95).
(** is_ascii_alphanumeric() || '_' (lexer.rs:137) and regex [a-zA-Z0-9_] (native.rs:27) *)
Definition is_ident_char (c : char) : bool := is_alpha c || is_digit c || (c =? 95).

(** The longest prefix satisfying [p], and the rest: the [while let Some(peek)]
    loops of lexer.rs:90-98,103-111,117-127,136-143. *)
Fixpoint span (p : char -> bool) (s : str) : str * str :=
  match s with
  | [] => ([], [])
  | c :: s' => if p c then let (a, b) := span p s' in (c :: a, b) else ([], s)
  end.

(** for trim, request.rs:29 *)
Fixpoint drop_while (p : char -> bool) (s : str) : str :=
  match s with
  | [] => []
  | c :: s' => if p c then drop_while p s' else s
  end.

(** str::trim; used at request.rs:29-45, response.rs:46-51, evaluator.rs:172 *)
Definition trim (s : str) : str := rev (drop_while is_ws (rev (drop_while is_ws s))).

(** str::split_whitespace: maximal runs of non-whitespace characters; request.rs:31 *)
Fixpoint words_acc (acc : str) (s : str) : list str :=
  match s with
  | [] => match acc with [] => [] | _ => [rev acc] end
  | c :: s' =>
      if is_ws c then match acc with [] => words_acc [] s' | _ => rev acc :: words_acc [] s' end
      else words_acc (c :: acc) s'
  end.
(** used at request.rs:31, response.rs:37 *)
Definition split_whitespace (s : str) : list str := words_acc [] s.

(** strip one trailing '\r'; request.rs:29 *)
Definition strip_cr (s : str) : str :=
  match rev s with
  | 13 :: r => rev r
  | _ => s
  end.

(** str::lines: split after every '\n'; the '\n' and a '\r' right before it are
    removed; no final empty line; an unterminated last line is kept as it is; request.rs:29 *)
Fixpoint lines_acc (acc : str) (s : str) : list str :=
  match s with
  | [] => match acc with [] => [] | _ => [rev acc] end
  | c :: s' => if c =? 10 then strip_cr (rev acc) :: lines_acc [] s' else lines_acc (c :: acc) s'
  end.
(** used at request.rs:29 *)
Definition lines (s : str) : list str := lines_acc [] s.

(** str::split_once with a char pattern; also str::find with slicing around the hit;
    used at request.rs:40-66, response.rs:48, url.rs:16-24 *)
Fixpoint split_once (d : char) (s : str) : option (str * str) :=
  match s with
  | [] => None
  | c :: s' =>
      if c =? d then Some ([], s')
      else match split_once d s' with
           | Some (a, b) => Some (c :: a, b)
           | None => None
           end
  end.

(** str::strip_prefix; used at url.rs:12, request.rs:68 *)
Fixpoint strip_prefix (p s : str) : option str :=
  match p, s with
  | [], _ => Some s
  | x :: p', y :: s' => if x =? y then strip_prefix p' s' else None
  | _ :: _, [] => None
  end.

(** One step of the iterator str::split(pat): the next piece, and what is left
    after the separator if one was found (url.rs:12-14). *)
Fixpoint split_next (pat s : str) : str * option str :=
  match strip_prefix pat s with
  | Some r => ([], Some r)
  | None =>
      match s with
      | [] => ([], None)
      | c :: s' => let (a, r) := split_next pat s' in (c :: a, r)
      end
  end.

(** str::starts_with / char ASCII lower-casing; used at request.rs:45 *)
Definition lower (c : char) : char := if (65 <=? c) && (c <=? 90) then c + 32 else c.

(** Decimal digits, most significant first; parser.rs:161, url.rs:22, main.rs:76 *)
Fixpoint digits_val (acc : N) (s : str) : option N :=
  match s with
  | [] => Some acc
  | c :: s' => if is_digit c then digits_val (acc * 10 + (c - 48)) s' else None
  end.

(** u16/u64 [str::parse]: an optional '+', at least one digit, only digits, and
    the value at most [max] (core::num from_str_radix);
    used at url.rs:22, response.rs:91-96, main.rs:76 *)
Definition parse_unsigned (max : N) (s : str) : option N :=
  let ds := match s with 43 :: ((_ :: _) as r) => r | _ => s end in
  match ds with
  | [] => None
  | _ => match digits_val 0 ds with
         | Some n => if n <=? max then Some n else None
         | None => None
         end
  end.

(** Display of unsigned integers; stat.rs:37-45 *)
Fixpoint show_N_fuel (fuel : nat) (n : N) (acc : str) : str :=
  match fuel with
  | O => acc
  | S f => let acc' := (48 + n mod 10) :: acc in
           if n / 10 =? 0 then acc' else show_N_fuel f (n / 10) acc'
  end.
(** used at stat.rs:37-45, native.rs:34 *)
Definition show_N (n : N) : str := show_N_fuel (S (N.size_nat n)) n [].
(** used at native.rs:34, native.rs:49 *)
Definition show_nat (n : nat) : str := show_N (N.of_nat n).
(** Display of i64; used at value.rs:31, syntax.rs:72 *)
Definition show_Z (z : Z) : str :=
  match z with
  | Z0 => show_N 0
  | Zpos p => show_N (Npos p)
  | Zneg p => 45 :: show_N (Npos p)
  end.
