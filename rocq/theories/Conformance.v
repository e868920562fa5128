(** The unit tests of the repository, run on the model: every table below is that
    of the test cited, and the model gives the result the test asks for.  Tests that
    need the network are left out (evaluator.rs:517-551, client.rs:45-141). *)
From Verif Require Import ValueExamples EvalExamples SpecEval HttpStream Writer TestCommand.
Open Scope Z_scope.

Definition kinds (text : str) : list (kind * str) := map (fun t => (tkind t, tlit t)) (segment text).
Definition eval_to (t : str * value) : bool :=
  match script debug (fst t) with Some (Ok v, _) => value_eqb v (snd t) | _ => false end.
(** every program of the table parses, evaluates and gives a value equal to the one listed *)
Definition passes (l : list (str * value)) : bool := forallb eval_to l.

Definition exprs_of (text : str) : option (list expr) := match parse text with Ok s => Some (s_exprs s) | _ => None end.
Definition shown (e : expr) : str := show_expr e.
Definition debugged (text : str) : option str := option_map (fun es => List.concat (map (debug_expr) es)) (exprs_of text).

(** lexer.rs:165 *)
Example test_segment : kinds (lit "
            let five = 5;
            let ten = 10;
            let float = 3.14159265358979323846264338327950288;

            let add = fn(x, y) {
            x + y;
            };
            
            let number = add(five, ten);
            !-/*5;
            5 < 10 > 5;
            
            if (5 < 10) {
                return true;
            } else {
                return false;
            }
            
            10 == 10;
            10 != 9;
            ""foobar""
            ""foo bar""
            [1, 2];
            {""foo"": ""bar""};
            _a2
            request get()`
              GET http://example.com
              Host: example.com
            `[
            status == 200,
            regex(text, ""^\d{4}-\d{2}-\d{2}$"") == ""2022-02-22""
            ]
            left.field
            test expectStatusOk {
                let response = get();
                response.status
            }
            1&0
            1|0
            true&&false
            false||true
            ") =
  [(KLet, (lit "let"));
   (KIdent, (lit "five"));
   (KAssign, (lit "="));
   (KInteger, (lit "5"));
   (KSemi, (lit ";"));
   (KLet, (lit "let"));
   (KIdent, (lit "ten"));
   (KAssign, (lit "="));
   (KInteger, (lit "10"));
   (KSemi, (lit ";"));
   (KLet, (lit "let"));
   (KIdent, (lit "float"));
   (KAssign, (lit "="));
   (KFloat, (lit "3.14159265358979323846264338327950288"));
   (KSemi, (lit ";"));
   (KLet, (lit "let"));
   (KIdent, (lit "add"));
   (KAssign, (lit "="));
   (KIdent, (lit "fn"));
   (KLp, (lit "("));
   (KIdent, (lit "x"));
   (KComma, (lit ","));
   (KIdent, (lit "y"));
   (KRp, (lit ")"));
   (KLb, (lit "{"));
   (KIdent, (lit "x"));
   (KAdd, (lit "+"));
   (KIdent, (lit "y"));
   (KSemi, (lit ";"));
   (KRb, (lit "}"));
   (KSemi, (lit ";"));
   (KLet, (lit "let"));
   (KIdent, (lit "number"));
   (KAssign, (lit "="));
   (KIdent, (lit "add"));
   (KLp, (lit "("));
   (KIdent, (lit "five"));
   (KComma, (lit ","));
   (KIdent, (lit "ten"));
   (KRp, (lit ")"));
   (KSemi, (lit ";"));
   (KNot, (lit "!"));
   (KSub, (lit "-"));
   (KDiv, (lit "/"));
   (KMul, (lit "*"));
   (KInteger, (lit "5"));
   (KSemi, (lit ";"));
   (KInteger, (lit "5"));
   (KLt, (lit "<"));
   (KInteger, (lit "10"));
   (KGt, (lit ">"));
   (KInteger, (lit "5"));
   (KSemi, (lit ";"));
   (KIf, (lit "if"));
   (KLp, (lit "("));
   (KInteger, (lit "5"));
   (KLt, (lit "<"));
   (KInteger, (lit "10"));
   (KRp, (lit ")"));
   (KLb, (lit "{"));
   (KIdent, (lit "return"));
   (KTrue, (lit "true"));
   (KSemi, (lit ";"));
   (KRb, (lit "}"));
   (KElse, (lit "else"));
   (KLb, (lit "{"));
   (KIdent, (lit "return"));
   (KFalse, (lit "false"));
   (KSemi, (lit ";"));
   (KRb, (lit "}"));
   (KInteger, (lit "10"));
   (KEq, (lit "=="));
   (KInteger, (lit "10"));
   (KSemi, (lit ";"));
   (KInteger, (lit "10"));
   (KNe, (lit "!="));
   (KInteger, (lit "9"));
   (KSemi, (lit ";"));
   (KString, (lit "foobar"));
   (KString, (lit "foo bar"));
   (KLs, (lit "["));
   (KInteger, (lit "1"));
   (KComma, (lit ","));
   (KInteger, (lit "2"));
   (KRs, (lit "]"));
   (KSemi, (lit ";"));
   (KLb, (lit "{"));
   (KString, (lit "foo"));
   (KColon, (lit ":"));
   (KString, (lit "bar"));
   (KRb, (lit "}"));
   (KSemi, (lit ";"));
   (KIdent, (lit "_a2"));
   (KRequest, (lit "request"));
   (KIdent, (lit "get"));
   (KLp, (lit "("));
   (KRp, (lit ")"));
   (KTemplate, (lit "
              GET http://example.com
              Host: example.com
            "));
   (KLs, (lit "["));
   (KIdent, (lit "status"));
   (KEq, (lit "=="));
   (KInteger, (lit "200"));
   (KComma, (lit ","));
   (KIdent, (lit "regex"));
   (KLp, (lit "("));
   (KIdent, (lit "text"));
   (KComma, (lit ","));
   (KString, (lit "^\d{4}-\d{2}-\d{2}$"));
   (KRp, (lit ")"));
   (KEq, (lit "=="));
   (KString, (lit "2022-02-22"));
   (KRs, (lit "]"));
   (KIdent, (lit "left"));
   (KDot, (lit "."));
   (KIdent, (lit "field"));
   (KTest, (lit "test"));
   (KIdent, (lit "expectStatusOk"));
   (KLb, (lit "{"));
   (KLet, (lit "let"));
   (KIdent, (lit "response"));
   (KAssign, (lit "="));
   (KIdent, (lit "get"));
   (KLp, (lit "("));
   (KRp, (lit ")"));
   (KSemi, (lit ";"));
   (KIdent, (lit "response"));
   (KDot, (lit "."));
   (KIdent, (lit "status"));
   (KRb, (lit "}"));
   (KInteger, (lit "1"));
   (KBa, (lit "&"));
   (KInteger, (lit "0"));
   (KInteger, (lit "1"));
   (KBo, (lit "|"));
   (KInteger, (lit "0"));
   (KTrue, (lit "true"));
   (KLa, (lit "&&"));
   (KFalse, (lit "false"));
   (KFalse, (lit "false"));
   (KLo, (lit "||"));
   (KTrue, (lit "true"));
   (KEof, (lit ""))].
Proof. vm_compute. reflexivity. Qed.

(** evaluator.rs:275 *)
Example test_integer_arithmetic : passes
  [((lit "1"), (VInt (1)));
   ((lit "2"), (VInt (2)));
   ((lit "1 + 2"), (VInt (3)));
   ((lit "1 - 2"), (VInt (-1)));
   ((lit "1 * 2"), (VInt (2)));
   ((lit "4 / 2"), (VInt (2)));
   ((lit "7 % 3"), (VInt (1)));
   ((lit "50 / 2 * 2 + 10 - 5"), (VInt (55)));
   ((lit "5 * (2 + 10)"), (VInt (60)));
   ((lit "5 + 5 + 5 + 5 - 10"), (VInt (10)));
   ((lit "2 * 2 * 2 * 2 * 2"), (VInt (32)));
   ((lit "5 * 2 + 10"), (VInt (20)));
   ((lit "5 + 2 * 10"), (VInt (25)));
   ((lit "5 * (2 + 10)"), (VInt (60)));
   ((lit "-5"), (VInt (-5)));
   ((lit "-10"), (VInt (-10)));
   ((lit "-50 + 100 + -50"), (VInt (0)));
   ((lit "(5 + 10 * 2 + 15 / 3) * 2 + -10"), (VInt (50)));
   ((lit "!5"), (VInt (-6)));
   ((lit "!!5"), (VInt (5)));
   ((lit "!-3"), (VInt (2)));
   ((lit "5 ^ 3"), (VInt (6)));
   ((lit "5 | 3"), (VInt (7)));
   ((lit "5 & 3"), (VInt (1)));
   ((lit "5 << 2"), (VInt (20)));
   ((lit "5 >> 2"), (VInt (1)));
   ((lit "-5 >> 2"), (VInt (-2)))] = true.
Proof. vm_compute. reflexivity. Qed.

(** evaluator.rs:309 *)
Example test_float_arithmetic : passes
  [((lit "1.0"), (VFloat (S754_finite false 4503599627370496 (-52))));
   ((lit "0.2"), (VFloat (S754_finite false 7205759403792794 (-55))));
   ((lit "1.0 + 0.2"), (VFloat (S754_finite false 5404319552844595 (-52))));
   ((lit "1.2 - 1.0"), (VFloat (S754_finite false 7205759403792792 (-55))));
   ((lit "0.1 * 0.2"), (VFloat (S754_finite false 5764607523034236 (-58))));
   ((lit "4.0 / 2.0"), (VFloat (S754_finite false 4503599627370496 (-51))));
   ((lit "7.2 % 3.0"), (VFloat (S754_finite false 5404319552844596 (-52))));
   ((lit "5.0 / 2.0 * 2.0 + 1.0 - 0.5"), (VFloat (S754_finite false 6192449487634432 (-50))));
   ((lit "5.0 * (0.2 + 1.0)"), (VFloat (S754_finite false 6755399441055744 (-50))));
   ((lit "0.5 + 0.5 + 0.5 + 0.5 - 1.0"), (VFloat (S754_finite false 4503599627370496 (-52))));
   ((lit "0.2 * 0.2 * 0.2 * 0.2 * 0.2"), (VFloat (S754_finite false 5902958103587059 (-64))));
   ((lit "0.5 * 2.2 + 1.1"), (VFloat (S754_finite false 4953959590107546 (-51))));
   ((lit "0.5 + 0.2 * 10.0"), (VFloat (S754_finite false 5629499534213120 (-51))));
   ((lit "0.5 * (2.0 + 10.0)"), (VFloat (S754_finite false 6755399441055744 (-50))));
   ((lit "-0.5"), (VFloat (S754_finite true 4503599627370496 (-53))));
   ((lit "-1.0"), (VFloat (S754_finite true 4503599627370496 (-52))));
   ((lit "-5.0 + 10.0 + -5.0"), (VFloat (S754_zero false)));
   ((lit "(0.5 + 1.5 * 0.2 + 1.5 / 3.0) * 2.0 + -1.0"), (VFloat (S754_finite false 7205759403792794 (-52))))] = true.
Proof. vm_compute. reflexivity. Qed.

(** evaluator.rs:334 *)
Example test_boolean_arithmetic : passes
  [((lit "true"), (VBool true));
   ((lit "false"), (VBool false));
   ((lit "1 < 2"), (VBool true));
   ((lit "1 > 2"), (VBool false));
   ((lit "1 < 1"), (VBool false));
   ((lit "1 > 1"), (VBool false));
   ((lit "1 <= 2"), (VBool true));
   ((lit "1 >= 2"), (VBool false));
   ((lit "1 <= 1"), (VBool true));
   ((lit "1 >= 1"), (VBool true));
   ((lit "1 == 1"), (VBool true));
   ((lit "1 != 1"), (VBool false));
   ((lit "1 == 2"), (VBool false));
   ((lit "1 != 2"), (VBool true));
   ((lit "true == true"), (VBool true));
   ((lit "false == false"), (VBool true));
   ((lit "true == false"), (VBool false));
   ((lit "true != false"), (VBool true));
   ((lit "false != true"), (VBool true));
   ((lit "(1 < 2) == true"), (VBool true));
   ((lit "(1 < 2) == false"), (VBool false));
   ((lit "(1 > 2) == true"), (VBool false));
   ((lit "(1 > 2) == false"), (VBool true));
   ((lit "!true"), (VBool false));
   ((lit "!false"), (VBool true));
   ((lit "!!true"), (VBool true));
   ((lit "!!false"), (VBool false));
   ((lit "!(if (false) { 5; })"), (VBool true))] = true.
Proof. vm_compute. reflexivity. Qed.

(** evaluator.rs:369 *)
Example test_string_literal : passes
  [((lit """hello world"""), (VStr (lit "hello world")));
   ((lit """hello"" + "" world"""), (VStr (lit "hello world")));
   ((lit """hello""+"" world""+""!"""), (VStr (lit "hello world!")))] = true.
Proof. vm_compute. reflexivity. Qed.

(** evaluator.rs:379 *)
Example test_logical_expr : passes
  [((lit "true || true"), (VBool true));
   ((lit "true || false"), (VBool true));
   ((lit "false || true"), (VBool true));
   ((lit "false || false"), (VBool false));
   ((lit """Cat"" || ""Dog"""), (VStr (lit "Cat")));
   ((lit "false || ""Cat"""), (VStr (lit "Cat")));
   ((lit """Cat"" || false"), (VStr (lit "Cat")));
   ((lit """"" || false"), (VStr (lit "")));
   ((lit "false || """""), (VStr (lit "")));
   ((lit "true && true"), (VBool true));
   ((lit "true &&  false"), (VBool false));
   ((lit "false && true"), (VBool false));
   ((lit "false && false"), (VBool false));
   ((lit """Cat"" && ""Dog"""), (VStr (lit "Dog")));
   ((lit "false && ""Cat"""), (VBool false));
   ((lit """Cat"" && false"), (VBool false));
   ((lit """"" && false"), (VBool false));
   ((lit "false && """""), (VBool false));
   ((lit "true || false && false"), (VBool true));
   ((lit "(true || false) && false"), (VBool false));
   ((lit "true && (false || false)"), (VBool false));
   ((lit "2 == 3 || (4 < 0 && 1 == 1)"), (VBool false));
   ((lit "true && false && 1 == 1"), (VBool false));
   ((lit "let flag = true && false && 1 == 1;"), (VBool false))] = true.
Proof. vm_compute. reflexivity. Qed.

(** evaluator.rs:410 *)
Example test_array_literal : passes
  [((lit "[]"), (VArr []));
   ((lit "[1, 2, 3]"), (VArr [(VInt (1)); (VInt (2)); (VInt (3))]));
   ((lit "[1 + 2, 3 - 4, 5 * 6]"), (VArr [(VInt (3)); (VInt (-1)); (VInt (30))]))] = true.
Proof. vm_compute. reflexivity. Qed.

(** evaluator.rs:426 *)
Example test_map_literal : passes
  [((lit "{}"), (VMap []));
   ((lit "{1: 2, 2: 3}"), (VMap [((lit "1"), (VInt (2))); ((lit "2"), (VInt (3)))]));
   ((lit "{1 + 1: 2 * 2, 3 + 3: 4 * 4}"), (VMap [((lit "2"), (VInt (4))); ((lit "6"), (VInt (16)))]))] = true.
Proof. vm_compute. reflexivity. Qed.

(** evaluator.rs:448 *)
Example test_index_expr : passes
  [((lit "[1, 2, 3][1]"), (VInt (2)));
   ((lit "[1, 2, 3][0 + 2]"), (VInt (3)));
   ((lit "[[1, 1, 1]][0][0]"), (VInt (1)));
   ((lit "[][0]"), VNull);
   ((lit "[1, 2, 3][99]"), VNull);
   ((lit "[1][-1]"), VNull);
   ((lit "{1: 1, 2: 2}[1]"), (VInt (1)));
   ((lit "{1: 1, 2: 2}[2]"), (VInt (2)));
   ((lit "{1: 1}[0]"), VNull);
   ((lit "{}[0]"), VNull)] = true.
Proof. vm_compute. reflexivity. Qed.

(** evaluator.rs:465 *)
Example test_field_expr : passes
  [((lit "{""a"": 2}.a"), (VInt (2)))] = true.
Proof. vm_compute. reflexivity. Qed.

(** evaluator.rs:471 *)
Example test_let_expr : passes
  [((lit "let one = 1; one"), (VInt (1)));
   ((lit "let one = 1; let two = 2; one + two"), (VInt (3)));
   ((lit "let one = 1; let two = one + one; one + two"), (VInt (3)));
   ((lit "let one = 1; one;"), (VInt (1)));
   ((lit "let one = 1; let two = 2; one + two;"), (VInt (3)));
   ((lit "let one = 1; let two = one + one; one + two;"), (VInt (3)));
   ((lit "let one = 1;let one = 2;"), (VInt (2)));
   ((lit "let one = 1;let one = 2;one"), (VInt (2)));
   ((lit "let one = 1;let two = 2;let one = 3;one"), (VInt (3)))] = true.
Proof. vm_compute. reflexivity. Qed.

(** evaluator.rs:487 *)
Example test_if_expr : passes
  [((lit "if (true) { 10 }"), (VInt (10)));
   ((lit "if (true) { 10 } else { 20 }"), (VInt (10)));
   ((lit "if (false) { 10 } else { 20 } "), (VInt (20)));
   ((lit "if (1) { 10 }"), (VInt (10)));
   ((lit "if (1 < 2) { 10 }"), (VInt (10)));
   ((lit "if (1 < 2) { 10 } else { 20 }"), (VInt (10)));
   ((lit "if (1 > 2) { 10 } else { 20 }"), (VInt (20)));
   ((lit "if (1 > 2) { 10 }"), VNull);
   ((lit "if (false) { 10 }"), VNull);
   ((lit "if ((if (false) { 10 })) { 10 } else { 20 }"), (VInt (20)));
   ((lit "if (true) {} else { 10 }"), VNull);
   ((lit "if (true) { 1; 2 } else { 3 }"), (VInt (2)))] = true.
Proof. vm_compute. reflexivity. Qed.

(** evaluator.rs:506 *)
Example test_call_native : passes
  [((lit "length("""")"), (VInt (0)));
   ((lit "length(""two"")"), (VInt (3)));
   ((lit "length(""hello world"")"), (VInt (11)));
   ((lit "length([])"), (VInt (0)));
   ((lit "length([1, 2, 3])"), (VInt (3)))] = true.
Proof. vm_compute. reflexivity. Qed.

(** parser.rs:543 *)
Example test_parse_operator_precedence : map debugged
  [(lit "-a * b"); (lit "!-a"); (lit "a + b + c"); (lit "a + b - c"); (lit "a * b * c"); (lit "a * b / c"); (lit "a + b / c"); (lit "a + b * c + d / e - f"); (lit "3 + 4; -5 * 6"); (lit "5 > 4 == 3 < 4"); (lit "5 < 4 != 3 > 4"); (lit "3 + 4 * 5 == 3 * 1 + 4 * 5"); (lit "true"); (lit "false"); (lit "3 > 5 == false"); (lit "3 < 5 == true"); (lit "1 + (2 + 3) + 4"); (lit "(5 + 5) * 2"); (lit "2 / (5 + 5)"); (lit "(5 + 5) * 2 * (5 + 5)"); (lit "-(5 + 5)"); (lit "!(true == true)"); (lit "a + add(b * c) + d"); (lit "add(a, b, 1, 2 * 3, 4 + 5, add(6, 7 * 8))"); (lit "add(a + b + c * d / f + g)"); (lit "a * [1, 2, 3, 4][b * c] * d"); (lit "add(a * b[2], b[1], 2 * [1, 2][1])"); (lit "!add()"); (lit "-add()"); (lit "!array[1]"); (lit "-left.field"); (lit "3 > 2 && 2 > 1"); (lit "a || b * c"); (lit "a && b < c"); (lit "b + c || a"); (lit "b < c & a")] =
  [Some (lit "((-a) * b)"); Some (lit "(!(-a))"); Some (lit "((a + b) + c)"); Some (lit "((a + b) - c)"); Some (lit "((a * b) * c)"); Some (lit "((a * b) / c)"); Some (lit "(a + (b / c))"); Some (lit "(((a + (b * c)) + (d / e)) - f)"); Some (lit "(3 + 4)((-5) * 6)"); Some (lit "((5 > 4) == (3 < 4))"); Some (lit "((5 < 4) != (3 > 4))"); Some (lit "((3 + (4 * 5)) == ((3 * 1) + (4 * 5)))"); Some (lit "true"); Some (lit "false"); Some (lit "((3 > 5) == false)"); Some (lit "((3 < 5) == true)"); Some (lit "((1 + (2 + 3)) + 4)"); Some (lit "((5 + 5) * 2)"); Some (lit "(2 / (5 + 5))"); Some (lit "(((5 + 5) * 2) * (5 + 5))"); Some (lit "(-(5 + 5))"); Some (lit "(!(true == true))"); Some (lit "((a + add((b * c))) + d)"); Some (lit "add(a, b, 1, (2 * 3), (4 + 5), add(6, (7 * 8)))"); Some (lit "add((((a + b) + ((c * d) / f)) + g))"); Some (lit "((a * ([1, 2, 3, 4][(b * c)])) * d)"); Some (lit "add((a * (b[2])), (b[1]), (2 * ([1, 2][1])))"); Some (lit "(!add())"); Some (lit "(-add())"); Some (lit "(!(array[1]))"); Some (lit "(-left.field)"); Some (lit "((3 > 2) && (2 > 1))"); Some (lit "(a || (b * c))"); Some (lit "(a && (b < c))"); Some (lit "((b + c) || a)"); Some (lit "((b < c) & a)")].
Proof. vm_compute. reflexivity. Qed.

(** parser.rs:332 *)
Example test_parse_let_expr : map (fun t => match exprs_of t with Some (ELet n e :: es) => Some (S (length es), lit "let " ++ n ++ lit " " ++ shown e) | _ => None end)
  [(lit "let x =  5;"); (lit "let x =  5 let y = 6"); (lit "let y  = true;"); (lit "let  foobar = y;"); (lit "let i = 0; [1][i];")] =
  [Some (1%nat, (lit "let x 5")); Some (2%nat, (lit "let x 5")); Some (1%nat, (lit "let y true")); Some (1%nat, (lit "let foobar y")); Some (2%nat, (lit "let i 0"))].
Proof. vm_compute. reflexivity. Qed.

(** parser.rs:489 *)
Example test_parse_binary_expr : map (fun t => match exprs_of t with Some [EBin op a b] => Some (shown a, tlit op, shown b) | _ => None end)
  [(lit "5 + 5;"); (lit "5 - 5;"); (lit "5 * 5;"); (lit "5 / 5;"); (lit "5 > 5;"); (lit "5 < 5;"); (lit "5 >= 5;"); (lit "5 <= 5;"); (lit "5 == 5;"); (lit "5 != 5;"); (lit "foobar + barfoo;"); (lit "foobar - barfoo;"); (lit "foobar * barfoo;"); (lit "foobar / barfoo;"); (lit "foobar > barfoo;"); (lit "foobar < barfoo;"); (lit "foobar == barfoo;"); (lit "foobar != barfoo;"); (lit "true == true"); (lit "true != false"); (lit "false == false"); (lit "1^0"); (lit "1&0"); (lit "1|0"); (lit "true&&false"); (lit "false||true")] =
  [Some ((lit "5"), (lit "+"), (lit "5")); Some ((lit "5"), (lit "-"), (lit "5")); Some ((lit "5"), (lit "*"), (lit "5")); Some ((lit "5"), (lit "/"), (lit "5")); Some ((lit "5"), (lit ">"), (lit "5")); Some ((lit "5"), (lit "<"), (lit "5")); Some ((lit "5"), (lit ">="), (lit "5")); Some ((lit "5"), (lit "<="), (lit "5")); Some ((lit "5"), (lit "=="), (lit "5")); Some ((lit "5"), (lit "!="), (lit "5")); Some ((lit "foobar"), (lit "+"), (lit "barfoo")); Some ((lit "foobar"), (lit "-"), (lit "barfoo")); Some ((lit "foobar"), (lit "*"), (lit "barfoo")); Some ((lit "foobar"), (lit "/"), (lit "barfoo")); Some ((lit "foobar"), (lit ">"), (lit "barfoo")); Some ((lit "foobar"), (lit "<"), (lit "barfoo")); Some ((lit "foobar"), (lit "=="), (lit "barfoo")); Some ((lit "foobar"), (lit "!="), (lit "barfoo")); Some ((lit "true"), (lit "=="), (lit "true")); Some ((lit "true"), (lit "!="), (lit "false")); Some ((lit "false"), (lit "=="), (lit "false")); Some ((lit "1"), (lit "^"), (lit "0")); Some ((lit "1"), (lit "&"), (lit "0")); Some ((lit "1"), (lit "|"), (lit "0")); Some ((lit "true"), (lit "&&"), (lit "false")); Some ((lit "false"), (lit "||"), (lit "true"))].
Proof. vm_compute. reflexivity. Qed.

(** parser.rs:460; the entry for [~] is skipped by the test itself, as the program does not parse *)
Example test_parse_unary_expr : map (fun t => match exprs_of t with Some [EUn op a] => Some (tlit op, shown a) | _ => None end)
  [(lit "!5;"); (lit "-15;"); (lit "!foobar;"); (lit "-foobar;"); (lit "!true;"); (lit "!false;")] =
  [Some ((lit "!"), (lit "5")); Some ((lit "-"), (lit "15")); Some ((lit "!"), (lit "foobar")); Some ((lit "-"), (lit "foobar")); Some ((lit "!"), (lit "true")); Some ((lit "!"), (lit "false"))] /\ exprs_of (lit "~5;") = None.
Proof. vm_compute. split; reflexivity. Qed.

(** parser.rs:366, 384, 402, 421, 441: identifiers and literals *)
Example test_parse_literals : map exprs_of [lit "foobar;"; lit "5;"; lit "3.14159265358979323846264338327950288;"; lit "true;"; lit "false;"; lit """hello world"";"] =
  [Some [EIdent (lit "foobar")]; Some [EInt 5]; Some [EFloat (S754_finite false 7074237752028440 (-51))]; Some [EBool true]; Some [EBool false]; Some [EStr (lit "hello world")]].
Proof. vm_compute. reflexivity. Qed.

(** parser.rs:603, 623 *)
Example test_parse_if : map (fun t => match exprs_of t with Some [EIf c a b] => Some (shown c, map shown a, map shown b) | _ => None end)
  [lit "if (x < y) { x }"; lit "if (x < y) { z;x } else { y }"] =
  [Some (lit "x < y", [lit "x"], []); Some (lit "x < y", [lit "z"; lit "x"], [lit "y"])].
Proof. vm_compute. reflexivity. Qed.

(** parser.rs:644, 665 *)
Example test_parse_call : map (fun t => match exprs_of t with Some [ECall f args] => Some (f, map shown args) | _ => None end)
  [lit "add();"; lit "add(1);"; lit "add(1, 2 * 3, 4 + 5);"] =
  [Some (lit "add", []); Some (lit "add", [lit "1"]); Some (lit "add", [lit "1"; lit "2 * 3"; lit "4 + 5"])].
Proof. vm_compute. reflexivity. Qed.

(** parser.rs:690, 708, 729, 748 *)
Example test_parse_array : map (fun t => match exprs_of t with Some [EArr es] => Some (map shown es) | _ => None end) [lit "[]"; lit "[1, 2 * 2, 3 + 3]"] =
  [Some []; Some [lit "1"; lit "2 * 2"; lit "3 + 3"]].
Proof. vm_compute. reflexivity. Qed.
Example test_parse_access :
  match exprs_of (lit "myArray[1 + 1]") with Some [EIndex a i] => Some (shown a, shown i) | _ => None end = Some (lit "myArray", lit "1 + 1") /\
  match exprs_of (lit "left.field") with Some [EField a f] => Some (shown a, f) | _ => None end = Some (lit "left", lit "field").
Proof. vm_compute. split; reflexivity. Qed.

(** parser.rs:767, 785, 810, 839, 867, 896 *)
Example test_parse_map : map (fun t => match exprs_of t with Some [EMap ps] => Some (map (fun kv => (shown (fst kv), shown (snd kv))) ps) | _ => None end)
  [lit "{}"; lit "{1: true}"; lit "{""one"": 1, ""two"": 2, ""three"": 3}"; lit "{true: 1, false: 2}"; lit "{1: 1, 2: 2, 3: 3}";
   lit "{""one"": 0 + 1, ""two"": 10 - 8, ""three"": 15 / 5}"] =
  [Some []; Some [(lit "1", lit "true")]; Some [(lit """one""", lit "1"); (lit """two""", lit "2"); (lit """three""", lit "3")];
   Some [(lit "true", lit "1"); (lit "false", lit "2")]; Some [(lit "1", lit "1"); (lit "2", lit "2"); (lit "3", lit "3")];
   Some [(lit """one""", lit "0 + 1"); (lit """two""", lit "10 - 8"); (lit """three""", lit "15 / 5")]].
Proof. vm_compute. reflexivity. Qed.

(** parser.rs:926 *)
Example test_parse_request_literal : map (fun t => match parse t with Ok s => Some (s_requests s) | _ => None end)
  [(lit "request get`
GET http://{host}/api
Host: example.com
`"); (lit "request post`POST`")] =
  [Some [((lit "get"), ((lit "
GET http://{host}/api
Host: example.com
"), []))]; Some [((lit "post"), ((lit "POST"), []))]].
Proof. vm_compute. reflexivity. Qed.

(** parser.rs:956 *)
Example test_parse_request_asserts : map (fun t => match parse t with Ok s => Some (map (fun r => map shown (snd (snd r))) (s_requests s)) | _ => None end)
  [(lit "request get`\nGET http://${host}/api\nHost: example.com\n`[
               status == 200,
               regex(text, ""^\d{4}-\d{2}-\d{2}$"") == ""2022-02-22""
               ]"); (lit "request post`POST`[]")] =
  [Some [[(lit "status == 200"); (lit "regex(text, ""^\d{4}-\d{2}-\d{2}$"") == ""2022-02-22""")]]; Some [[]]].
Proof. vm_compute. reflexivity. Qed.

(** parser.rs:986 *)
Example test_parse_test_literal : map (fun t => match parse t with Ok s => Some (map (fun r => (fst r, length (snd r))) (s_tests s)) | _ => None end)
  [(lit "
            test expectStatusOk {
                let response = get();
                response.status
            }"); (lit "
            test empty {
            }")] =
  [Some [((lit "expectStatusOk"), 2%nat)]; Some [((lit "empty"), 0%nat)]].
Proof. vm_compute. reflexivity. Qed.

(** url.rs:67-145 *)
Example test_url : map url_from
  [(lit "http://IP_ADDRESS"); (lit "http://IP_ADDRESS:52831"); (lit "http://IP_ADDRESS/hello"); (lit "http://IP_ADDRESS:52831/hello/world"); (lit "http://IP_ADDRESS/hello/world?a=b"); (lit "http://IP_ADDRESS:52831/hello/world?a=b"); (lit "http://IP_ADDRESS/hello/world?a=b#fragment"); (lit "http://IP_ADDRESS:52831/hello/world?a=b#fragment")] =
  [Url Http (lit "IP_ADDRESS") 80 (lit "/"); Url Http (lit "IP_ADDRESS") 52831 (lit "/"); Url Http (lit "IP_ADDRESS") 80 (lit "/hello"); Url Http (lit "IP_ADDRESS") 52831 (lit "/hello/world"); Url Http (lit "IP_ADDRESS") 80 (lit "/hello/world?a=b"); Url Http (lit "IP_ADDRESS") 52831 (lit "/hello/world?a=b"); Url Http (lit "IP_ADDRESS") 80 (lit "/hello/world?a=b#fragment"); Url Http (lit "IP_ADDRESS") 52831 (lit "/hello/world?a=b#fragment")].
Proof. vm_compute. reflexivity. Qed.

(** response.rs:99-128 *)
Definition test_message : str := lit "HTTP/1.1 200 OK
    Date: Sun, 21 Jul 2025 14:32:11 GMT
    Content-Type: application/json
    Content-Length: 33
    Connection: close
    Server: gunicorn/19.9.0
    Access-Control-Allow-Origin: *
    Access-Control-Allow-Credentials: true

    {
    ""origin"": ""104.28.152.141""
    }
    ".
Example test_from_message_json :
  match response_from (Reader (utf8 test_message) None) with
  | inl r => rs_status r = 200%N /\ length (rs_headers r) = 7%nat /\ rs_body r = (lit "    {
    ""origin"": ""104.28.152.141""
    }
    ") /\
      match to_map (some_host true) r with Ok m => mget (lit "json") m = Some (VMap [(lit "origin", VStr (lit "104.28.152.141"))]) | _ => False end
  | inr _ => False
  end.
Proof. vm_compute. repeat split. Qed.

(** request.rs:118-125, mod.rs:108-118 *)
Example test_from_message_get :
  let r := fst (request_from (fun _ => true) (lit "
    GET http://httpbin.org/get
    Host: httpbin.org")) in
  rq_method r = Get /\ rq_url r = Url Http (lit "httpbin.org") 80 (lit "/get") /\ rq_headers r = [(lit "Host", lit "httpbin.org")] /\
  method_from (lit "GET") = Get /\ version_from (lit "HTTP/2.0") = Http20.
Proof. vm_compute. repeat split. Qed.

(** stream.rs:213-229 *)
Example test_rotate : rotate [1; 2; 3] [4; 5; 6] = [1; 4; 2; 5; 3; 6] /\ rotate [1; 2; 3; 100; 101] [4; 5; 6] = [1; 4; 2; 5; 3; 6; 100; 101] /\
  rotate [1; 2; 3] [4; 5; 6; 100; 101] = [1; 4; 2; 5; 3; 6; 100; 101].
Proof. vm_compute. repeat split. Qed.

(** native.rs:77 *)
Example test_format : map (native_format (some_host true))
  [[(VStr (lit "Hello, {name}!")); (VStr (lit "World"))];
   [(VStr (lit "{ ""name"": ""{name}"" , age: 2 }")); (VStr (lit "Bob"))];
   [(VStr (lit "{ ""name"": ""{name}"" , age: {age} }")); (VStr (lit "Bob")); (VInt (2))]] =
  [Ok (VStr (lit "Hello, World!"));
   Ok (VStr (lit "{ ""name"": ""Bob"" , age: 2 }"));
   Ok (VStr (lit "{ ""name"": ""Bob"" , age: 2 }"))].
Proof. vm_compute. reflexivity. Qed.

(** native.rs:113 *)
Example test_append : map native_append
  [[(VArr [(VInt (1))]); (VInt (2))];
   [(VArr [(VInt (1))]); (VStr (lit "string"))];
   [(VArr [(VInt (1))]); (VBool true)]] =
  [Ok (VArr [(VInt (1)); (VInt (2))]);
   Ok (VArr [(VInt (1)); (VStr (lit "string"))]);
   Ok (VArr [(VInt (1)); (VBool true)])].
Proof. vm_compute. reflexivity. Qed.

(** writer.rs:165-190 *)
Example test_encode : encode_long 27 = [0x36]%N /\ encode_bytes (lit "foo") = [0x06; 0x66; 0x6f; 0x6f]%N /\
  (let data := encode_long 27 ++ encode_bytes (lit "foo") in encode_long 1 ++ encode_long (Z.of_nat (length data)) ++ data = [0x02; 0x0a; 0x36; 0x06; 0x66; 0x6f; 0x6f]%N).
Proof. vm_compute. repeat split. Qed.

(** cmd/tests/command.rs:7-25 *)
Example test_command_repl :
  let (o, s) := repl debug [Some (lit "let x = 1 + 1; println(""{x}"", x);"); Some (lit "exit")] (St ctx_new []) in
  o = Ok tt /\ printed (s_trace s) = lit "2" ++ [10%N] ++ lit "null" ++ [10%N].
Proof. vm_compute. repeat split. Qed.
(** cmd/tests/command.rs:27-39 *)
Example test_command_eval : map (fun t => printed (s_trace (snd (command_eval debug t (St ctx_new [])))))
  [lit "print(""{integer}"", 1 + 1 )"; lit "let x = 1 + 1; print(""{integer}"", x);"; lit "println(""{string}"", ""Hello Basjoofan!"")"] =
  [lit "2null" ++ [10%N]; lit "2null" ++ [10%N]; lit "Hello Basjoofan!" ++ [10%N] ++ lit "null" ++ [10%N]].
Proof. vm_compute. reflexivity. Qed.

(** cmd/tests/command.rs:41-76, on a network that answers 200 *)
Definition test_source : str := lit "
    let host = ""httpbin.org"";
    request get`
        GET http://{host}/get
        Host: {host}
        Connection: close
    `[status == 200];

    test call {
        let response = get();
        response.status
    }
    ".
Example test_command_test :
  match main_test (fun l => l) online test_source None 1 None 1 None with
  | (Ok (Some [j]), _) =>
      match run_once online (j_ctx j) None (j_name j) 0 (j_body j) with
      | Some (_, s, _) => printed (s_trace s) = lit "=== TEST  get" ++ [10%N] ++ lit "status == 200 => 200 == 200 => true" ++ [10%N] ++ lit "--- PASS  get (10ns)" ++ [10%N]
      | None => False
      end
  | _ => False
  end /\
  match main_test (fun l => l) online test_source (Some (lit "blank")) 1 None 1 None with
  | (Ok (Some []), s) => printed (s_trace s) = lit "Test not found: blank" ++ [10%N]
  | _ => False
  end.
Proof. vm_compute. split; reflexivity. Qed.
