(** lib/src/token.rs *)
From Verif Require Export Text.
Open Scope N_scope.

(** token.rs:5-61 *)
Inductive kind : Type :=
| KIllegal | KEof
| KIdent | KInteger | KFloat | KTrue | KFalse | KString | KTemplate
| KAdd | KSub | KMul | KDiv | KRem | KNot | KBx | KBo | KBa | KSl | KSr
| KLo | KLa | KLt | KGt | KLe | KGe | KEq | KNe
| KAssign | KComma | KSemi | KColon | KDot
| KLp | KRp | KLb | KRb | KLs | KRs
| KRequest | KLet | KIf | KElse | KTest.

(** #[derive(PartialEq)] token.rs:5 *)
Definition kind_eq_dec (a b : kind) : {a = b} + {a <> b}.
Proof. decide equality. Defined.
(** derived ==, token.rs:5 *)
Definition kind_eqb (a b : kind) : bool := if kind_eq_dec a b then true else false.

(** #[derive(Debug)] token.rs:5: the variant name *)
Definition kind_debug (k : kind) : str :=
  match k with
  | KIllegal => lit "Illegal" | KEof => lit "Eof"
  | KIdent => lit "Ident" | KInteger => lit "Integer" | KFloat => lit "Float"
  | KTrue => lit "True" | KFalse => lit "False" | KString => lit "String" | KTemplate => lit "Template"
  | KAdd => lit "Add" | KSub => lit "Sub" | KMul => lit "Mul" | KDiv => lit "Div" | KRem => lit "Rem"
  | KNot => lit "Not" | KBx => lit "Bx" | KBo => lit "Bo" | KBa => lit "Ba" | KSl => lit "Sl" | KSr => lit "Sr"
  | KLo => lit "Lo" | KLa => lit "La" | KLt => lit "Lt" | KGt => lit "Gt" | KLe => lit "Le" | KGe => lit "Ge"
  | KEq => lit "Eq" | KNe => lit "Ne"
  | KAssign => lit "Assign" | KComma => lit "Comma" | KSemi => lit "Semi" | KColon => lit "Colon" | KDot => lit "Dot"
  | KLp => lit "Lp" | KRp => lit "Rp" | KLb => lit "Lb" | KRb => lit "Rb" | KLs => lit "Ls" | KRs => lit "Rs"
  | KRequest => lit "Request" | KLet => lit "Let" | KIf => lit "If" | KElse => lit "Else" | KTest => lit "Test"
  end.

(** token.rs:63-72; Display (104-108) is the literal itself *)
Record token := Tok { tkind : kind; tlit : str }.

(** token.rs:74-101, as a function of the kind *)
Definition precedence (k : kind) : N :=
  match k with
  | KLo => 1
  | KLa => 2
  | KBo => 3
  | KBx => 4
  | KBa => 5
  | KEq | KNe => 6
  | KLt | KGt | KLe | KGe => 7
  | KSl | KSr => 8
  | KAdd | KSub => 9
  | KMul | KDiv | KRem => 10
  | KNot => 11
  | KLp => 12
  | KLs | KDot => 13
  | _ => 0
  end.
