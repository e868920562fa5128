(** Response values and JSON bodies *)
From Verif Require Import SpecHttp TextProofs TextMore LexerProofs LexOneProofs ParserTop ParserProgram ParserFuel ParserTermination DisplayProofs.
From Coq Require Import ZifyBool.
Open Scope N_scope.

(** ** the entries *)
Lemma values_app n a b : values_of n (a ++ b) = values_of n a ++ values_of n b.
Proof. apply flat_map_app. Qed.
Lemma header_map_last hs (m v : str) : header_map (hs ++ [(m, v)]) =
  match mget m (header_map hs) with Some (VArr a) => mset m (VArr (a ++ [VStr v])) (header_map hs) | _ => mset m (VArr [VStr v]) (header_map hs) end.
Proof. unfold header_map. rewrite fold_left_app. reflexivity. Qed.
Lemma header_map_spec hs : forall n, mget n (header_map hs) = match values_of n hs with [] => None | vs => Some (VArr (map VStr vs)) end.
Proof.
  induction hs as [|[m v] hs IH] using rev_ind; intros n; [reflexivity|].
  rewrite values_app, header_map_last, (IH m). cbn [values_of flat_map fst snd]. destruct (list_eq_dec N.eq_dec n m) as [->|D].
  - rewrite app_nil_r. destruct (values_of m hs) as [|x xs]; cbn [app]; rewrite mget_mset_same; auto.
    rewrite (app_comm_cons xs [v] x), map_app. reflexivity.
  - rewrite !app_nil_r. destruct (values_of m hs); rewrite mget_mset_other by auto; apply IH.
Qed.

Definition response_names : list str := [lit "version"; lit "status"; lit "reason"; lit "headers"; lit "body"; lit "json"].
Lemma to_map_entries h r m : to_map h r = Ok m ->
  mget (lit "version") m = Some (VStr (rs_version r)) /\ mget (lit "status") m = Some (VInt (Z.of_N (rs_status r))) /\
  mget (lit "reason") m = Some (VStr (rs_reason r)) /\ mget (lit "body") m = Some (VStr (rs_body r)) /\
  (exists hm, mget (lit "headers") m = Some (VMap hm) /\
     forall n, mget n hm = match values_of n (rs_headers r) with [] => None | vs => Some (VArr (map VStr vs)) end) /\
  (forall n, ~ In n response_names -> mget n m = None).
Proof.
  unfold to_map. intros H.
  set (m0 := mset (lit "body") _ _) in *.
  assert (E : m = m0 \/ exists j, m = mset (lit "json") j m0).
  { destruct (parse (rs_body r)) as [src| | |]; try discriminate; [destruct (s_exprs src)|]; injection H as <-; [left|right; eexists|left]; reflexivity. }
  assert (F : forall n, n <> lit "json" -> mget n m = mget n m0).
  { intros n N. destruct E as [->|(j & ->)]; auto. now apply mget_mset_other. }
  split; [rewrite F by discriminate; reflexivity|]. split; [rewrite F by discriminate; reflexivity|].
  split; [rewrite F by discriminate; reflexivity|]. split; [rewrite F by discriminate; reflexivity|]. split.
  - exists (header_map (rs_headers r)). split; [rewrite F by discriminate; reflexivity|apply header_map_spec].
  - intros n N. cbn [In response_names] in N. rewrite F by (intros ->; tauto). subst m0.
    repeat (rewrite mget_mset_other by (intros ->; tauto)). reflexivity.
Qed.
Lemma to_map_json h r m : to_map h r = Ok m ->
  (forall v, mget (lit "json") m = Some v <-> exists src e es, parse (rs_body r) = Ok src /\ s_exprs src = e :: es /\ v = expr_eval h e).
Proof.
  unfold to_map. set (m0 := mset (lit "body") _ _). assert (J : mget (lit "json") m0 = None) by reflexivity. intros H v.
  destruct (parse (rs_body r)) as [src|er| |] eqn:P; try discriminate.
  - destruct (s_exprs src) as [|e es] eqn:E.
    + injection H as <-. rewrite J. split; [discriminate|]. intros (src' & e & es & [= <-] & Q & _). congruence.
    + assert (G : m = mset (lit "json") (expr_eval h e) m0) by congruence. rewrite G, mget_mset_same. split.
      * intros [= <-]. exists src, e, es. auto.
      * intros (src' & e' & es' & [= <-] & Q & ->). rewrite E in Q. inversion Q. reflexivity.
  - injection H as <-. rewrite J. split; [discriminate|]. intros (src' & e & es & Q & _). congruence.
Qed.

(** ** JSON documents *)
Scheme json_mut := Induction for json Sort Prop with json_items_mut := Induction for json_items Sort Prop with json_members_mut := Induction for json_members Sort Prop.
Combined Scheme json_all from json_mut, json_items_mut, json_members_mut.

Lemma seg_blank a rest : blank a -> segment (a ++ rest) = segment rest.
Proof. induction 1; cbn [app]; auto. rewrite segment_ws; auto. Qed.
Lemma ws_brk c : ws c -> ~ letter c /\ ~ digit c /\ c <> 46.
Proof. intros W. pose proof (ws_not_special _ W). split; [tauto|]. split; [tauto|]. intros ->. apply is_ws_iff in W. discriminate. Qed.
Lemma brk_blank a rest : blank a -> brk false rest -> brk false (a ++ rest).
Proof.
  intros B R. destruct B as [|c a C B]; auto. apply brk_char. destruct (ws_brk _ C) as (? & ? & ?). repeat split; auto.
Qed.
Lemma seg_frac a b rest : a <> [] -> Forall digit a -> Forall digit b -> brk false rest ->
  segment ((a ++ 46 :: b) ++ rest) = Tok KFloat (a ++ 46 :: b) :: segment rest.
Proof.
  intros N F G B. destruct a as [|c a]; [congruence|]. inversion F; subst. cbn [app].
  assert (S : spells (c :: a ++ 46 :: b) (Tok KFloat (c :: a ++ 46 :: b))).
  { apply sp_float; auto; [|apply in_app_iff; cbn; auto]. apply Forall_app. split; [|constructor; auto]; eapply Forall_impl; try eassumption; cbn; auto. }
  change (segment ((c :: a ++ 46 :: b) ++ rest) = Tok KFloat (c :: a ++ 46 :: b) :: segment rest). apply seg_spells; auto.
  apply maximal_intro. intros w2 t2 rest2 E S2. eapply app_len_le; [exact E|exact (digit_only _ _ _ S2 H1)|].
  intros x r ->. destruct (B x r eq_refl) as (B1 & B2 & B3). specialize (B3 eq_refl). tauto.
Qed.
Definition lexed (s : str) (w : list token) : Prop := forall rest, brk false rest -> segment (s ++ rest) = w ++ segment rest.
Definition fine (h : host) (s : str) (x : jtree) (e : expr) (w : list token) : Prop :=
  lexed s w /\ syntax true e w /\ no_let_operand e /\ prec_ok e /\ denotes x (expr_eval h e).

Lemma number_fine h s x : number s x -> exists e w, fine h s x e w /\ ~ is_binary e /\ ~ is_let e.
Proof.
  intros [ds N F L|a b f N F M G P];
    [exists (EInt (Z.of_N (decimal ds))), [Tok KInteger ds]|exists (EFloat f), [Tok KFloat (a ++ 46 :: b)]]; (split; [split; [|split; [|split; [|split]]]|]).
  - intros rest B. apply seg_number; auto.
  - now apply sx_int.
  - split; exact I.
  - split; exact I.
  - constructor.
  - cbn. auto.
  - intros rest B. apply seg_frac; auto.
  - now apply sx_float.
  - split; exact I.
  - split; exact I.
  - constructor.
  - cbn. auto.
Qed.
Lemma word_lexed w t : spells w t -> (exists c w', w = c :: w' /\ letter c) -> lexed w [t].
Proof. intros S L rest B. eapply seg_word; eauto. Qed.

Lemma json_fine h :
  (forall s x, json s x -> exists e w, fine h s x e w) /\
  (forall s xs, json_items s xs -> exists es w, lexed s w /\ syntax_list true es w /\ Forall (fun e => no_let_operand e /\ prec_ok e) es /\ Forall2 denotes xs (map (expr_eval h) es)) /\
  (forall s ps, json_members s ps -> exists es w, lexed s w /\ syntax_pairs true es w /\
     Forall (fun kv => (no_let_operand (fst kv) /\ prec_ok (fst kv)) /\ no_let_operand (snd kv) /\ prec_ok (snd kv)) es /\
     Forall2 (fun p kv => fst kv = EStr (fst p) /\ denotes (snd p) (expr_eval h (snd kv))) ps es).
Proof.
  apply json_all.
  - intros a s b x A B _ (e & w & L & R). exists e, w. split; auto. intros rest K. rewrite <- !app_assoc. rewrite seg_blank by auto.
    rewrite L by now apply brk_blank. now rewrite seg_blank.
  - exists (EIdent (lit "null")), [Tok KIdent (lit "null")]. split; [|repeat split; constructor].
    apply word_lexed; [|do 2 eexists; split; [reflexivity|right; left; split; vm_compute; discriminate]]. apply (sp_ident 110 (lit "ull")).
    + unfold letter; lia.
    + repeat (apply Forall_cons; [left; right; left; split; vm_compute; discriminate|]). apply Forall_nil.
    + intros k I. unfold keywords in I. simpl in I. decompose [or] I; try contradiction; discriminate.
  - exists (EBool true), [op KTrue "true"]. split; [|repeat split; constructor].
    apply word_lexed; [|do 2 eexists; split; [reflexivity|right; left; split; vm_compute; discriminate]]. apply sp_keyword. cbn. auto.
  - exists (EBool false), [op KFalse "false"]. split; [|repeat split; constructor].
    apply word_lexed; [|do 2 eexists; split; [reflexivity|right; left; split; vm_compute; discriminate]]. apply sp_keyword. cbn. auto.
  - intros s x N. destruct (number_fine h _ _ N) as (e & w & F & _). eauto.
  - intros s x N. destruct (number_fine h _ _ N) as (e & w & (L & S & NL & P & _) & NB & NE). exists (EUn (op KSub "-") e), (op KSub "-" :: w).
    split; [|split; [|split; [|split]]].
    + intros rest B. cbn [app]. rewrite (seg_chars 45 KSub) by reflexivity. now rewrite L.
    + apply sx_un; auto. right. reflexivity.
    + split; auto.
    + split; auto.
    + constructor.
  - intros s [P Q]. exists (EStr s), [Tok KString s]. split; [|repeat split; constructor]. intros rest B. cbn [app]. rewrite <- app_assoc. cbn [app]. now rewrite seg_string.
  - intros a A. exists (EArr []), [op KLs "["; op KRs "]"]. split; [|split; [|split; [|split]]].
    + intros rest B. cbn [app]. rewrite (seg_chars 91 KLs) by reflexivity. rewrite <- app_assoc. rewrite seg_blank by auto. cbn [app].
      rewrite (seg_chars 93 KRs) by reflexivity. reflexivity.
    + apply (sx_arr true [] []). constructor.
    + split; exact I.
    + split; exact I.
    + constructor. constructor.
  - intros s xs _ (es & w & L & S & F & D). exists (EArr es), (op KLs "[" :: w ++ [op KRs "]"]). split; [|split; [|split; [|split]]].
    + intros rest B. cbn [app]. rewrite (seg_chars 91 KLs) by reflexivity. rewrite <- !app_assoc. rewrite L by brk. cbn [app].
      rewrite (seg_chars 93 KRs) by reflexivity. reflexivity.
    + now constructor.
    + split; [exact I|]. clear -F. induction F; [exact I|]. split; tauto.
    + split; [exact I|]. clear -F. induction F; [exact I|]. split; tauto.
    + cbn [expr_eval]. now constructor.
  - intros a A. exists (EMap []), [op KLb "{"; op KRb "}"]. split; [|split; [|split; [|split]]].
    + intros rest B. cbn [app]. rewrite (seg_chars 123 KLb) by reflexivity. rewrite <- app_assoc. rewrite seg_blank by auto. cbn [app].
      rewrite (seg_chars 125 KRb) by reflexivity. reflexivity.
    + apply (sx_map true [] []). constructor.
    + split; exact I.
    + split; exact I.
    + constructor; [constructor|cbn; tauto|discriminate].
  - intros s ps _ (es & w & L & S & F & D). exists (EMap es), (op KLb "{" :: w ++ [op KRb "}"]). split; [|split; [|split; [|split]]].
    + intros rest B. cbn [app]. rewrite (seg_chars 123 KLb) by reflexivity. rewrite <- ?app_assoc. rewrite L by brk. cbn [app].
      rewrite (seg_chars 125 KRb) by reflexivity. reflexivity.
    + now constructor.
    + split; [exact I|]. clear -F. induction F as [|[k v] es]; [exact I|]. cbn [fst snd] in *. split; [tauto|]. split; tauto.
    + split; [exact I|]. clear -F. induction F as [|[k v] es]; [exact I|]. cbn [fst snd] in *. split; [tauto|]. split; tauto.
    + cbn [expr_eval]. set (kvs := map _ es).
      assert (X : Forall2 (fun p kv => fst kv = fst p /\ denotes (snd p) (snd kv)) ps kvs).
      { subst kvs. clear -D. induction D as [|[k x] [ke ve] ps es [E D] _ IH]; cbn [map]; constructor; auto. cbn [fst snd] in *. subst. auto. }
      clearbody kvs. clear -X. assert (K : map fst kvs = map fst ps). { clear -X. induction X as [|? ? ? ? [E _]]; cbn; congruence. }
      constructor.
      * apply mextend_nodup. constructor.
      * intros k. rewrite <- K. destruct (in_dec (list_eq_dec N.eq_dec) k (map fst kvs)) as [J|J].
        -- split; auto. intros _. destruct (mget k (mextend [] kvs)) as [v|] eqn:G; [|apply mextend_none in G; contradiction].
           apply mget_some_in in G. apply in_map_iff. exists (k, v). auto.
        -- split; [|contradiction]. intros J'. exfalso. apply in_map_iff in J'. destruct J' as ([k' v] & <- & J').
           apply mextend_in in J'. destruct J' as [[]|J']. apply J. apply in_map_iff. exists (k', v). auto.
      * intros k v G. apply mextend_last in G. destruct G as (a & b & -> & NB).
        apply Forall2_app_inv_r in X. destruct X as (a' & b' & X1 & X2 & ->). inversion X2 as [|[k' x] ? b'' ? [E DX] X3]; subst. cbn [fst snd] in *. subst k'.
        exists x. split; auto. exists a', b''. split; auto. replace (map fst b'') with (map fst b); auto.
        clear -X3. induction X3 as [|? ? ? ? [E _]]; cbn; congruence.
  - intros s x _ (e & w & L & S & NL & P & D). exists [e], w. split; auto. split; [now constructor|]. split; [auto|]. cbn [map]. auto.
  - intros s x s' xs _ (e & w & L & S & NL & P & D) _ (es & w' & L' & S' & F & D'). exists (e :: es), (w ++ op KComma "," :: w').
    split; [|split; [now constructor|split; [auto|cbn [map]; auto]]].
    intros rest B. rewrite <- ?app_assoc. cbn [app]. rewrite L by brk. rewrite seg_comma, L' by auto. reflexivity.
  - intros a k b s x A [K _] B _ (e & w & L & S & NL & P & D). exists [(EStr k, e)], (Tok KString k :: op KColon ":" :: w).
    split; [|split; [|split]].
    + intros rest R. rewrite <- ?app_assoc. rewrite seg_blank by auto. cbn [app]. rewrite <- ?app_assoc. cbn [app]. rewrite <- ?app_assoc. rewrite seg_string by auto. rewrite seg_blank by auto. cbn [app].
      rewrite (seg_chars 58 KColon) by reflexivity. rewrite L by auto. reflexivity.
    + apply (sp_last true (EStr k) [Tok KString k] e w); auto. constructor.
    + constructor; auto. cbn [fst snd]. repeat split; auto.
    + constructor; auto.
  - intros a k b s x s' ps A [K _] B _ (e & w & L & S & NL & P & D) _ (es & w' & L' & S' & F & D').
    exists ((EStr k, e) :: es), (Tok KString k :: op KColon ":" :: w ++ op KComma "," :: w').
    split; [|split; [|split]].
    + intros rest R. rewrite <- ?app_assoc. rewrite seg_blank by auto. cbn [app]. rewrite <- ?app_assoc. cbn [app]. rewrite <- ?app_assoc. rewrite seg_string by auto. rewrite seg_blank by auto. cbn [app].
      rewrite (seg_chars 58 KColon) by reflexivity. rewrite <- ?app_assoc. cbn [app]. rewrite L by brk. rewrite seg_comma, L' by auto. rewrite <- ?app_assoc. reflexivity.
    + apply (sp_cons true (EStr k) [Tok KString k] e w); auto. constructor.
    + constructor; auto. cbn [fst snd]. repeat split; auto.
    + constructor; auto.
Qed.
Theorem json_body h r t : json (rs_body r) t -> exists m v, to_map h r = Ok m /\ mget (lit "json") m = Some v /\ denotes t v.
Proof.
  intros J. destruct (proj1 (json_fine h) _ _ J) as (e & w & L & S & NL & P & D).
  destruct (parses (rs_body r) [IExpr e] w) as (src & Q & E & _).
  - specialize (L [] ltac:(intros c r'; discriminate)). rewrite app_nil_r in L. exact L.
  - apply pg_last. now constructor.
  - intros i e' [<-|[]] Ie. cbn in Ie. subst. auto.
  - unfold to_map. rewrite Q. cbn [item_exprs flat_map app] in E. rewrite E. do 2 eexists. split; [reflexivity|].
    split; [apply mget_mset_same|exact D].
Qed.

(** ** endless bodies *)
Theorem body_diverges h r : to_map h r = Diverge <-> forall n, parse_fuel n (segment (rs_body r)) = PFuel.
Proof.
  rewrite <- parse_diverges. unfold to_map. destruct (parse (rs_body r)) as [src| | |]; try (split; congruence).
  destruct (s_exprs src); split; discriminate.
Qed.
Theorem body_terminates h r : no_bang (segment (rs_body r)) -> exists m, to_map h r = Ok m.
Proof.
  intros N. unfold to_map. destruct (parse_finishes _ N) as [(src & ->)|(e & ->)]; eauto. destruct (s_exprs src); eauto.
Qed.
Theorem body_hangs h r a n b rest : rs_body r = a ++ n ++ b ++ 33 :: rest -> blank a -> spells n (Tok KIdent n) -> blank b -> (forall x, rest <> 61 :: x) ->
  to_map h r = Diverge.
Proof.
  intros E A S B R. apply body_diverges. intros k.
  assert (L : exists c w', n = c :: w' /\ letter c).
  { destruct (ident_spelling n) as [_ X]; auto. exists n. exact S. }
  assert (G : segment (rs_body r) = [Tok KIdent n] ++ op KNot "!" :: segment rest).
  { rewrite E. rewrite seg_blank by auto. rewrite (seg_word n _ _ false S L).
    - cbn [app]. f_equal. rewrite seg_blank by auto. apply seg_chars; [reflexivity|]. unfold lex_one. cbn. destruct rest as [|x y]; [reflexivity|].
      destruct (x =? 61) eqn:X; [apply N.eqb_eq in X; subst; now elim (R y)|]. destruct x as [|q]; auto. do 7 (try (destruct q as [q|q|]; auto)). discriminate.
    - apply brk_blank; auto. apply brk_char. unfold letter, digit. lia. }
  apply (never_ends _ [] (EIdent n) [Tok KIdent n] (segment rest)); auto.
  - apply pg_last. constructor. constructor.
  - intros u X. destruct u as [|? [|]]; discriminate.
  - intros i e [<-|[]] Ie. cbn in Ie. subst. repeat split.
Qed.
