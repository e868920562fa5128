(** lib/src/http/url.rs and the Scheme type of lib/src/http/mod.rs:100-106 *)
From Verif Require Export Text.
Open Scope N_scope.

(** mod.rs:100-106 *)
Inductive scheme := Http | Https.

(** mod.rs:34-52 for Scheme: exact, case-sensitive names; the first variant is
    the default for everything else and for a missing text *)
Definition scheme_from (s : str) : scheme :=
  if str_eqb s (lit "http") then Http
  else if str_eqb s (lit "https") then Https
  else Http.

(** mod.rs:54-74 *)
Definition scheme_text (s : scheme) : str :=
  match s with Http => lit "http" | Https => lit "https" end.

(** url.rs:3-8 *)
Record url := Url { u_scheme : scheme; u_host : str; u_port : N; u_path : str }.

(** url.rs:32-35 *)
Definition default_port (s : scheme) : N := match s with Http => 80 | Https => 443 end.

(** url.rs:6 *)
Definition u16_max : N := 65535.

(** url.rs:10-39.  [split("://")] is an iterator of which the code takes the
    first two pieces and ignores any further one. *)
Definition url_from (s : str) : url :=
  let (first, rest) := split_next (lit "://") s in
  let sch := scheme_from first in
  let '(host, port, path) :=
    match rest with
    | Some r =>
        let (second, _) := split_next (lit "://") r in
        let (host, path) :=
          match split_once 47 second with
          | Some (a, b) => (a, 47 :: b)
          | None => (second, lit "/")
          end in
        let (host, port) :=
          match split_once 58 host with
          | Some (a, b) => (a, parse_unsigned u16_max b)
          | None => (host, None)
          end in
        (host, port, path)
    | None => (lit "localhost", None, lit "/")
    end in
  Url sch host (match port with Some p => p | None => default_port sch end) path.

(** url.rs:50-59 *)
Definition url_default : url := Url Http (lit "localhost") 80 (lit "/").

(** url.rs:41-48 *)
Definition url_from_opt (s : option str) : url :=
  match s with Some s => url_from s | None => url_default end.

(** url.rs:61-65 *)
Definition url_text (u : url) : str := scheme_text (u_scheme u) ++ lit "://" ++ u_host u ++ u_path u.
