(** What a connection delivers, however it is cut into pieces *)
From Verif Require Export HttpRead SpecHttp.
Open Scope N_scope.

(** the bytes that arrive *)
Fixpoint arrived (l : list arrival) : bytes :=
  match l with
  | [] => []
  | Piece b bs :: r => b :: bs ++ arrived r
  | Interrupt _ :: r => arrived r
  end.

(** [ended t bye e None]: the end counts as the end of the response;
    [ended t bye e (Some x)]: it counts as the failure [x] *)
Inductive ended (t : transport) (bye : option str) : ending -> option str -> Prop :=
| en_closed : ended t bye Closed None
| en_plain k x : t = Plain -> ended t bye (Broke k x) (Some x)
| en_other host x : t = Cipher host -> ended t bye (Broke OtherKind x) (Some x)
| en_unclean host x : t = Cipher host -> ended t bye (Broke UnexpectedEof x) None
| en_aborted host x : t = Cipher host -> ended t bye (Broke ConnectionAborted x) bye.

(** the first call of read is not interrupted *)
Definition undisturbed (w : incoming) : Prop := match w_arrivals w with Interrupt _ :: _ => False | _ => True end.
