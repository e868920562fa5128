(** A request message as a user writes it *)
From Verif Require Export SpecHttp.
Open Scope N_scope.

(** spaces and tabs *)
Definition spaces (s : str) : Prop := Forall (fun c => c = 32 \/ c = 9) s.
(** a header as it can be written on one line *)
Definition plain_header (h : header) : Prop :=
  fst h <> [] /\ snd h <> [] /\ trimmed (fst h) (fst h) /\ trimmed (snd h) (snd h) /\
  ~ In 58 (fst h) /\ ~ In 10 (fst h) /\ ~ In 10 (snd h).
Definition plain_line (l : str) : Prop := ~ In 10 l /\ forall l', l <> l' ++ [13].
(** the lines of the body, the last one not ending in white space *)
Definition plain_body (body : list str) : Prop :=
  Forall plain_line body /\ (body = [] \/ exists ls l c, body = ls ++ [l ++ [c]] /\ ~ ws c).

(** method, address and version on the first line, then the headers, then after an
    empty line the body; [indent] before the lines of the headers, [gap] on the
    empty line *)
Definition written (me : method) (address : str) (ve : version) (indent gap : str) (hs : list header) (body : list str) : str :=
  method_name me ++ lit " " ++ address ++ lit " " ++ version_name ve ++
  flat_map (fun h => 10 :: indent ++ fst h ++ lit ": " ++ snd h) hs ++
  match body with [] => [] | _ => 10 :: gap ++ flat_map (fun l => 10 :: l) body end.
(** the head that is sent *)
Definition head_sent (me : method) (path : str) (ve : version) (hs : list header) : str :=
  method_name me ++ lit " " ++ path ++ lit " " ++ version_name ve ++ [13; 10] ++
  flat_map (fun h => fst h ++ lit ": " ++ snd h ++ [13; 10]) hs ++ [13; 10].
