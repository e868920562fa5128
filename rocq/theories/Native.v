(** lib/src/native.rs *)
From Verif Require Export Value Utf8 Template.

(** Vec::pop: the last element and what is left; used at native.rs:25, native.rs:64 *)
Definition pop (values : list value) : option value * list value :=
  match rev values with
  | [] => (None, [])
  | v :: vs => (Some v, rev vs)
  end.

(** native.rs:23-45 *)
Definition native_format (h : host) (values : list value) : res :=
  match pop (rev values) with
  | (Some (VStr string), rest) =>
      let ranges := rev (find_iter string) in
      if Nat.eqb (length rest) (length ranges) then
        Ok (VStr (fold_left (fun s rv => replace_range s (fst rv) (show_value h (snd rv)))
                            (combine ranges rest) string))
      else Err (EArgCount (length rest) (length ranges))
  | (None, _) => Err ENeedParameter
  | (Some _, _) => Err EFirstString
  end.

(** native.rs:3-11 and 13-21: result and the text written to standard output *)
Definition native_println (h : host) (values : list value) : res * str :=
  match native_format h values with
  | Ok v => (Ok VNull, show_value h v ++ [10%N])
  | r => (r, [])
  end.
(** native.rs:13-21 *)
Definition native_print (h : host) (values : list value) : res * str :=
  match native_format h values with
  | Ok v => (Ok VNull, show_value h v)
  | r => (r, [])
  end.

(** native.rs:47-60; String::len counts bytes, [as i64] keeps the low 64 bits *)
Definition native_length (values : list value) : res :=
  match values with
  | [v] =>
      match v with
      | VStr s => Ok (VInt (wrap64 (Z.of_nat (length (utf8 s)))))
      | VArr items => Ok (VInt (wrap64 (Z.of_nat (length items))))
      | VMap pairs => Ok (VInt (wrap64 (Z.of_nat (length pairs))))
      | _ => Err (ELengthType v)
      end
  | _ => Err (EArgCount (length values) 1)
  end.

(** native.rs:62-74: the remaining arguments, popped from the reversed vector *)
Definition native_append (values : list value) : res :=
  match pop (rev values) with
  | (Some (VArr array), rest) => Ok (VArr (fold_left (fun a v => a ++ [v]) (rev rest) array))
  | (None, _) => Err ENeedParameter
  | (Some _, _) => Err EFirstArray
  end.
