(** Programs whose operands surely have the right types *)
From Verif Require Export SpecEval SpecSafe SpecReads SpecRun.
Open Scope nat_scope.

(** what a value may be; [TAnswer] is what calling a request gives *)
Inductive ty := TNull | TInt | TFloat | TBool | TStr | TArr | TMap | TAnswer.
Definition is_a (t : ty) (v : value) : Prop :=
  match t with
  | TNull => v = VNull
  | TInt => exists z, v = VInt z
  | TFloat => exists f, v = VFloat f
  | TBool => exists b, v = VBool b
  | TStr => exists s, v = VStr s
  | TArr => exists l, v = VArr l
  | TMap => exists m, v = VMap m
  | TAnswer => exists m, v = VMap m /\ (exists z, mget (lit "status") m = Some (VInt z)) /\
      (exists t, mget (lit "version") m = Some (VStr t)) /\ (exists t, mget (lit "reason") m = Some (VStr t)) /\
      (exists t, mget (lit "body") m = Some (VStr t)) /\ (exists hs, mget (lit "headers") m = Some (VMap hs))
  end.
(** one of the types *)
Definition has (T : list ty) (v : value) : Prop := exists t, In t T /\ is_a t v.
Definition anything : list ty := [TNull; TInt; TFloat; TBool; TStr; TArr; TMap].

(** what is known of variables: nothing, or that they are set to a value of one of the types *)
Definition scope := str -> option (list ty).
Definition unknown : scope := fun _ => None.
Definition with_var (n : str) (T : list ty) (G : scope) : scope := fun m => if list_eq_dec N.eq_dec n m then Some T else G m.
Definition weaker (G G' : scope) : Prop := forall n T, G n = Some T -> exists T', G' n = Some T' /\ incl T' T.
Definition true_of (G : scope) (vars : amap value) : Prop := forall n T, G n = Some T -> exists v, mget n vars = Some v /\ has T v.

(** operators *)
Definition number (a : ty) : Prop := a = TInt \/ a = TFloat.
Inductive binary : kind -> ty -> ty -> ty -> Prop :=
| bi_int k : In k [KAdd; KSub; KMul; KDiv; KRem; KBx; KBo; KBa; KSl; KSr] -> binary k TInt TInt TInt
| bi_float k a b : In k [KAdd; KSub; KMul; KDiv; KRem] -> number a -> number b -> a = TFloat \/ b = TFloat -> binary k a b TFloat
| bi_join : binary KAdd TStr TStr TStr
| bi_compare k a b : In k comparison_kinds -> binary k a b TBool.
Inductive unary : kind -> ty -> ty -> Prop :=
| un_minus a : number a -> unary KSub a a
| un_flip : unary KNot TInt TInt
| un_not a : a <> TInt -> unary KNot a TBool.
(** what can be indexed *)
Definition indexed (a b : ty) : Prop := a = TMap \/ a = TAnswer \/ a = TArr /\ b = TInt.
(** fields *)
Inductive member : ty -> str -> ty -> Prop :=
| mb_status : member TAnswer (lit "status") TInt
| mb_text f : In f [lit "version"; lit "reason"; lit "body"] -> member TAnswer f TStr
| mb_headers : member TAnswer (lit "headers") TMap.

Section Typed.
Variable reqs : amap (str * list expr).

(** [typed G e T G']: knowing [G], the value of [e] has one of the types [T], and [G'] is known afterwards.
    [typed_all] is the same for arguments, [typed_block] for blocks after a value with one of the types [T] *)
Inductive typed : scope -> expr -> list ty -> scope -> Prop :=
| ty_int G z : typed G (EInt z) [TInt] G
| ty_float G f : typed G (EFloat f) [TFloat] G
| ty_bool G b : typed G (EBool b) [TBool] G
| ty_str G s : typed G (EStr s) [TStr] G
| ty_arr G es Ts G' : typed_all G es Ts G' -> typed G (EArr es) [TArr] G'
| ty_map G ps Ts G' : typed_all G (flatten ps) Ts G' -> typed G (EMap ps) [TMap] G'
| ty_index G e i T U G1 G2 : typed G e T G1 -> typed G1 i U G2 -> (forall a b, In a T -> In b U -> indexed a b) ->
    typed G (EIndex e i) anything G2
| ty_field G e f T G' : typed G e T G' -> incl T [TMap; TAnswer] -> typed G (EField e f) anything G'
| ty_member G e f T U G' : typed G e T G' -> (forall a, In a T -> exists b, In b U /\ member a f b) -> typed G (EField e f) U G'
| ty_ident G n T : G n = Some T -> typed G (EIdent n) T G
| ty_let G n e T G' : typed G e T G' -> typed G (ELet n e) T (with_var n T G')
| ty_unary G t e T U G' : typed G e T G' -> (forall a, In a T -> exists b, In b U /\ unary (tkind t) a b) -> typed G (EUn t e) U G'
| ty_binary G t l r T U V G1 G2 : In (tkind t) strict_kinds -> typed G l T G1 -> typed G1 r U G2 ->
    (forall a b, In a T -> In b U -> exists c, In c V /\ binary (tkind t) a b c) -> typed G (EBin t l r) V G2
| ty_logic G t l r T U G1 G2 G3 : tkind t = KLo \/ tkind t = KLa -> typed G l T G1 -> typed G1 r U G2 ->
    weaker G3 G1 -> weaker G3 G2 -> typed G (EBin t l r) (T ++ U) G3
| ty_paren G e T G' : typed G e T G' -> typed G (EParen e) T G'
| ty_if G c a b T U V G1 G2 G3 G4 : typed G c T G1 -> typed_block G1 [TNull] a U G2 -> typed_block G1 [TNull] b V G3 ->
    weaker G4 G2 -> weaker G4 G3 -> typed G (EIf c a b) (U ++ V) G4
| ty_answer G n es Ts G' template asserts : typed_all G es Ts G' -> mget n reqs = Some (template, asserts) ->
    flat_map let_names asserts = [] -> typed G (ECall n es) [TAnswer] G'
| ty_request G n es Ts G' d : typed_all G es Ts G' -> mget n reqs = Some d -> typed G (ECall n es) [TMap] G'
| ty_print G n f ps es Ts G' : In n [lit "print"; lit "println"] -> mget n reqs = None -> scan f ps -> length es = length (holes ps) ->
    typed_all G es Ts G' -> typed G (ECall n (EStr f :: es)) [TNull] G'
| ty_format G f ps es Ts G' : mget (lit "format") reqs = None -> scan f ps -> length es = length (holes ps) ->
    typed_all G es Ts G' -> typed G (ECall (lit "format") (EStr f :: es)) [TStr] G'
| ty_length G e T G' : mget (lit "length") reqs = None -> typed G e T G' -> incl T [TStr; TArr; TMap; TAnswer] ->
    typed G (ECall (lit "length") [e]) [TInt] G'
| ty_append G e es T Ts G1 G2 : mget (lit "append") reqs = None -> typed G e T G1 -> incl T [TArr] -> typed_all G1 es Ts G2 ->
    typed G (ECall (lit "append") (e :: es)) [TArr] G2
| ty_weaken G e T T' G1 G2 : typed G e T G1 -> incl T T' -> weaker G2 G1 -> typed G e T' G2
with typed_all : scope -> list expr -> list (list ty) -> scope -> Prop :=
| ta_nil G : typed_all G [] [] G
| ta_cons G e es T Ts G1 G2 : typed G e T G1 -> typed_all G1 es Ts G2 -> typed_all G (e :: es) (T :: Ts) G2
with typed_block : scope -> list ty -> list expr -> list ty -> scope -> Prop :=
| tb_nil G T : typed_block G T [] T G
| tb_cons G T e es U V G1 G2 : typed G e U G1 -> typed_block G1 U es V G2 -> typed_block G T (e :: es) V G2.
End Typed.
