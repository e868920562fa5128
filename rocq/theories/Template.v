(** Placeholders: the regular expression of native.rs:27 and evaluator.rs:169
    (an opening brace, optional whitespace, an identifier, optional whitespace, a
    closing brace) and back-to-front replacement.  Used by
    native.rs:27 and evaluator.rs:169-181.
    Offsets count characters where Rust counts bytes; both slice at the same
    places because matches start and end at ASCII braces. *)
From Verif Require Export Text.
Open Scope N_scope.

(** A match of the regex at the start of [s]: its length in characters.  The
    classes of \s, [a-zA-Z0-9_] and the closing brace are disjoint, so greedy
    matching needs no backtracking; the pattern of native.rs:27, evaluator.rs:169 *)
Definition match_here (s : str) : option nat :=
  match s with
  | 123 :: s1 =>
      let (w1, s2) := span is_ws s1 in
      match s2 with
      | c :: _ =>
          if is_ident_start c then
            let (id, s3) := span is_ident_char s2 in
            let (w2, s4) := span is_ws s3 in
            match s4 with
            | 125 :: _ => Some (1 + length w1 + length id + length w2 + 1)%nat
            | _ => None
            end
          else None
      | [] => None
      end
  | _ => None
  end.

(** Regex::find_iter: leftmost, non-overlapping matches as ranges
    [(start, end)] in the whole text; [pos] is the offset of [s].  [skip] counts
    the characters still covered by the previous match; native.rs:28, evaluator.rs:170 *)
Fixpoint find_from (pos skip : nat) (s : str) : list (nat * nat) :=
  match s with
  | [] => []
  | _ :: s' =>
      match skip with
      | S k => find_from (S pos) k s'
      | O =>
          match match_here s with
          | Some len => (pos, pos + len)%nat :: find_from (S pos) (len - 1) s'
          | None => find_from (S pos) 0 s'
          end
      end
  end.
(** native.rs:28, evaluator.rs:170 *)
Definition find_iter (s : str) : list (nat * nat) := find_from 0 0 s.

(** String::replace_range; native.rs:37, evaluator.rs:180 *)
Definition replace_range (s : str) (range : nat * nat) (by_ : str) : str :=
  firstn (fst range) s ++ by_ ++ skipn (snd range) s.

(** &s[a..b]; evaluator.rs:172 *)
Definition slice (s : str) (a b : nat) : str := firstn (b - a) (skipn a s).

(** evaluator.rs:172: m.as_str()[1..len-1].trim() *)
Definition placeholder_name (s : str) (range : nat * nat) : str :=
  let m := slice s (fst range) (snd range) in trim (slice m 1 (length m - 1)).

(** evaluator.rs:169-181: [lookup] gives the text of a variable *)
Definition substitute (lookup : str -> str) (message : str) : str :=
  fold_left
    (fun msg r => replace_range msg (snd r) (lookup (fst r)))
    (rev (map (fun r => (placeholder_name message r, r)) (find_iter message)))
    message.
