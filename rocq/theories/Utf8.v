(** UTF-8, the byte form of Rust strings (String::len, as_bytes, into_bytes,
    BufRead::read_line, Read::read_to_string, fs::read_to_string). *)
From Verif Require Export Text.
Open Scope N_scope.

(** Unicode scalar values, the values of Rust's [char]; lexer.rs:6 *)
Definition is_scalar (c : char) : bool := (c <? 55296) || ((57344 <=? c) && (c <? 1114112)).

(** writer.rs:74 *)
Definition utf8_char (c : char) : bytes :=
  if c <? 128 then [c]
  else if c <? 2048 then [192 + c / 64; 128 + c mod 64]
  else if c <? 65536 then [224 + c / 4096; 128 + (c / 64) mod 64; 128 + c mod 64]
  else [240 + c / 262144; 128 + (c / 4096) mod 64; 128 + (c / 64) mod 64; 128 + c mod 64].

(** used at writer.rs:74-115, request.rs:86, native.rs:52 *)
Definition utf8 (s : str) : bytes := flat_map utf8_char s.

(** response.rs:36 *)
Definition is_cont (b : byte) : bool := (128 <=? b) && (b <? 192).

(** response.rs:36 *)
Definition push (c : char) (r : option str) : option str :=
  match r with Some s => Some (c :: s) | None => None end.

(** str::from_utf8: [None] on any malformed sequence (overlong forms,
    surrogates, values above 10FFFF, stray or missing continuation bytes);
    used by read_line and read_to_string, response.rs:35-56, and at command.rs:179 *)
Fixpoint utf8_decode (bs : bytes) : option str :=
  match bs with
  | [] => Some []
  | b0 :: r0 =>
      if b0 <? 128 then push b0 (utf8_decode r0)
      else if (192 <=? b0) && (b0 <? 224) then
        match r0 with
        | b1 :: r1 =>
            let c := (b0 - 192) * 64 + (b1 - 128) in
            if is_cont b1 && (128 <=? c) then push c (utf8_decode r1) else None
        | _ => None
        end
      else if (224 <=? b0) && (b0 <? 240) then
        match r0 with
        | b1 :: b2 :: r2 =>
            let c := (b0 - 224) * 4096 + (b1 - 128) * 64 + (b2 - 128) in
            if is_cont b1 && is_cont b2 && (2048 <=? c) && is_scalar c then push c (utf8_decode r2) else None
        | _ => None
        end
      else if (240 <=? b0) && (b0 <? 248) then
        match r0 with
        | b1 :: b2 :: b3 :: r3 =>
            let c := (b0 - 240) * 262144 + (b1 - 128) * 4096 + (b2 - 128) * 64 + (b3 - 128) in
            if is_cont b1 && is_cont b2 && is_cont b3 && (65536 <=? c) && is_scalar c
            then push c (utf8_decode r3) else None
        | _ => None
        end
      else None
  end.
