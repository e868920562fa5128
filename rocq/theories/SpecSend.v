(** What a request puts on which connection *)
From Verif Require Export HttpSend SpecHttp.
Open Scope N_scope.

Definition starts_with {A} (p s : list A) : Prop := exists r, s = p ++ r.
(** the connection may be slow, but does not fail *)
Definition willing (a : answer) : Prop := match a with Took O => False | Took _ => True | Interrupted => True | Failed _ => False end.
(** how the connection refuses: it fails with the text [e], or takes nothing *)
Definition refusal (e : str) (answers : list answer) : Prop :=
  In (Failed e) answers \/ In (Took 0) answers /\ In e [lit "failed to write whole buffer"; lit "failed to write the buffered data"].
Definition takes (a : answer) : bool := match a with Took _ => true | _ => false end.

(** all bytes of a request of which the last may be copied from a reader *)
Definition whole (pieces : list bytes) (body : option copied) : bytes :=
  List.concat pieces ++ match body with Some c => List.concat (cp_chunks c) | None => [] end.
(** the reader does not fail *)
Definition intact (body : option copied) : Prop := forall c, body = Some c -> cp_failure c = None.
(** the reader fails with the text [e] *)
Definition cut_short (e : str) (body : option copied) : Prop := exists chunks, body = Some (Copied chunks (Some e)).

(** the transport a URL asks for *)
Definition transport_for (u : url) : transport := match u_scheme u with Http => Plain | Https => Cipher (u_host u) end.
(** why no connection could be made *)
Definition unconnected (n : network) (u : url) (e : http_err) : Prop :=
  match e with
  | InvalidUrlHost => u_scheme u = Https /\ nw_name_ok n (u_host u) = false
  | TlsHandshakeFailed => u_scheme u = Https /\ nw_session_ok n (u_host u) = false
  | HostNotFound => nw_resolve n (u_host u) (u_port u) = None
  | NoConnectionAvailable => nw_resolve n (u_host u) (u_port u) = Some []
  | TcpConnectFailed => exists addrs, nw_resolve n (u_host u) (u_port u) = Some addrs /\ addrs <> [] /\ Forall (fun a => nw_accepts n a = false) addrs
  | SetReadTimeoutFailed => exists addrs a, nw_resolve n (u_host u) (u_port u) = Some addrs /\ In a addrs /\ nw_accepts n a = true /\ nw_timeout_ok n a = false
  | _ => False
  end.
