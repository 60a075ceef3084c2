(** * PropsDiag: the diagnostics of the compiler (C87) *)
From Coq Require Import List Ascii String ZArith NArith Lia Bool.
From Verif Require Import Base Lexer IR Builder Expr Stmt Decl SpecDiag DiagFacts FinalS.
Import ListNotations.
Open Scope string_scope.
Open Scope list_scope.

(** ** C87 *)
(** A rejected text is rejected with a message of the list of SpecDiag.v, with
    what is quoted taken from the text, or with the error of the reader (the
    end of the file included). *)
Theorem C87_catalogue : forall s f e, compile s f = Err e ->
  match e with
  | Msg m => diagnostic s m
  | EOF => f = false
  | IOErr => f = true
  end.
Proof.
  intros s f e H. apply compile_errs in H. destruct e; cbn in H; [| |exact H]; unfold read_end in H; destruct f; congruence.
Qed.
Print Assumptions C87_catalogue.

(** The list has no message too many: a text for each of them. One is given
    only when the file cannot be read to its end. *)
Definition witnesses : list (string * string) :=
  [ ("unclosed comment, expect '*/' to close the comment", "/* main");
    ("unclosed char literal", "main(){'abcdefghi'");
    ("unterminated string literal", "x ""abc");
    ("unexpected end of file after declaration", "x");
    ("unexpected end of file, expect expression", "main(a){a=");
    ("unexpected end of file, expect ival", "x -");
    ("initialization with global references is not supported yet", "x y;");
    ("expect ';' at end of declaration", "x 1}");
    ("expect identifier at top level", "}");
    ("expect ')' or identifier after function arguments", "f(,");
    ("expect identifier after 'auto'", "f(){auto ;");
    ("expect identifier after 'extrn'", "f(){extrn ;");
    ("expect label name after 'goto'", "f(){goto ;");
    ("expect '(' or ';' after 'return'", "f(){return 1;}");
    ("unexpected 'case' outside of 'switch' statements", "f(){case 1:;}");
    ("function redeclared as variable", "f(){extrn f;}");
    ("left operand of assignment must be an lvalue", "f(){1=2;}");
    ("expected lvalue after '--'", "f(){--1;}");
    ("expected lvalue after '++'", "f(){++1;}");
    ("expected lvalue after '&'", "f(){&1;}");
    ("expected lvalue for postfix '++'", "f(){1++;}");
    ("expected lvalue for postfix '--'", "f(){1--;}");
    ("expect ']' after vector size", "x[3");
    ("expect ')' after 'return' statement", "f(){return(1");
    ("expect ';' after 'return' statement", "f(){return(1)");
    ("expect ']' after array size", "f(){auto x[3");
    ("expect ';' after 'goto' statement", "f(){goto a");
    ("expect ';' after expression statement", "f(a){(a)");
    ("expect '(' after 'if'", "f(a){if");
    ("expect '(' after 'while'", "f(a){while");
    ("expect ')' after condition", "f(a){if(a");
    ("expect ':' after 'case'", "f(a){switch a case 1");
    ("expect ':' in ternary operator", "f(a){a?1");
    ("expect ']' after array index", "f(a){a[1");
    ("expect ')' after expression", "f(a){(1");
    ("expect ']' after vector size, got '}'", "x[3}");
    ("expect ')' after 'return' statement, got '}'", "f(){return(1}");
    ("expect ';' after 'return' statement, got '}'", "f(){return(1)}");
    ("expect ']' after array size, got '}'", "f(){auto x[3}");
    ("expect ';' after 'goto' statement, got '}'", "f(){goto a}");
    ("expect ';' after expression statement, got '}'", "f(a){a}");
    ("expect '(' after 'if', got '}'", "f(a){if}");
    ("expect '(' after 'while', got '}'", "f(a){while}");
    ("expect ')' after condition, got '}'", "f(a){if(a}");
    ("expect ':' after 'case', got '}'", "f(a){switch a case 1}");
    ("expect ':' in ternary operator, got '}'", "f(a){a?1}");
    ("expect ']' after array index, got '}'", "f(a){a[1}");
    ("expect ')' after expression, got '}'", "f(a){(1}");
    ("unexpected character '}', expect ')' or ','", "f(a}");
    ("unexpected character '}', expect ';' or ','", "f(){extrn a}");
    ("unexpected character '}', expect ';' or ',' after auto variable", "f(){auto a}");
    ("unexpected character '}', expect constant after 'case'", "f(a){switch a case }");
    ("unexpected character '}', expect ')'", "f(a){f(a}");
    ("unexpected character '1', expect '+'", "f(){+1;}");
    ("unexpected character '}', expect expression", "f(a){a=}");
    ("undefined escape character '*x'", "f(){'*x';}");
    ("unknown operator '!}'", "f(a){a!}");
    ("identifier 'a' already defined in this scope", "f(a){auto a;}");
    ("undefined identifier 'a'", "f(){a=1;}") ].
Definition gives (w : string * string) : bool :=
  match compile_string (snd w) with Err (Msg m) => String.eqb m (fst w) | _ => false end.
Lemma witnesses_ok : forallb gives witnesses = true.
Proof. vm_compute. reflexivity. Qed.
Lemma given w : In w witnesses -> compile (list_ascii_of_string (snd w)) false = Err (Msg (fst w)).
Proof.
  intros H. pose proof (proj1 (forallb_forall _ _) witnesses_ok _ H) as G. unfold gives, compile_string in G.
  destruct (compile (list_ascii_of_string (snd w)) false) as [| [| |m]|]; try discriminate G.
  apply String.eqb_eq in G. congruence.
Qed.
Lemma listed m : existsb (fun w => String.eqb m (fst w)) witnesses = true -> exists s, compile s false = Err (Msg m).
Proof.
  intros H. apply existsb_exists in H as (w & H & E). apply String.eqb_eq in E. subst m. eexists. apply given, H.
Qed.
Theorem C87_all_given :
  (forall m, In m (plain_messages ++ expectations) -> exists s f, compile s f = Err (Msg m)) /\
  (forall m, In m expectations -> exists s c, In c s /\ settled c /\ compile s false = Err (Msg (m ++ ", got '" ++ fmt_c c ++ "'"))) /\
  (forall m, In m alternatives -> exists s c, In c s /\ settled c /\ compile s false = Err (Msg ("unexpected character '" ++ fmt_c c ++ "', " ++ m))).
Proof.
  split; [|split].
  - intros m H. assert (D : {m = "unexpected end of file, expect vector size after '['"} + {m <> "unexpected end of file, expect vector size after '['"}) by apply string_dec.
    destruct D as [->|N].
    + exists (list_ascii_of_string "x[3"), true. vm_compute. reflexivity.
    + enough (exists s, compile s false = Err (Msg m)) as (s & E) by (exists s, false; exact E). apply listed.
      cbn [In app plain_messages expectations] in H.
      repeat (destruct H as [<-|H]; [first [destruct (N eq_refl) | vm_compute; reflexivity]|]). contradiction.
  - intros m H. cbn [In expectations] in H.
    assert (X : exists t, In ((m ++ ", got '}'")%string, t) witnesses /\ In "}"%char (list_ascii_of_string t)).
    { repeat (destruct H as [<-|H]; [eexists; split; [cbn [append witnesses In]; repeat first [left; reflexivity | right]|cbn; tauto]|]). contradiction. }
    destruct X as (t & X & Y). exists (list_ascii_of_string t), "}"%char. split; [exact Y|]. split; [split; discriminate|]. exact (given _ X).
  - intros m H. assert (D : {m = "expect '+'"} + {m <> "expect '+'"}) by apply string_dec. destruct D as [->|N].
    + exists (list_ascii_of_string "f(){+1;}"), "1"%char. split; [cbn; tauto|]. split; [split; discriminate|]. vm_compute. reflexivity.
    + cbn [In alternatives] in H.
      assert (X : exists t, In (("unexpected character '}', " ++ m)%string, t) witnesses /\ In "}"%char (list_ascii_of_string t)).
      { repeat (destruct H as [<-|H]; [first [destruct (N eq_refl) | eexists; split; [cbn [append witnesses In]; repeat first [left; reflexivity | right]|cbn; tauto]]|]). contradiction. }
      destruct X as (t & X & Y). exists (list_ascii_of_string t), "}"%char. split; [exact Y|]. split; [split; discriminate|]. exact (given _ X).
Qed.
Print Assumptions C87_all_given.

(** A message that names a wrong character or a wrong use is final: whatever is
    appended to the text, the message is the same. *)
Theorem C87_final : forall s m r, compile s false = Err (Msg m) -> final_message m -> no_star r ->
  compile (s ++ r) false = Err (Msg m).
Proof. exact compile_final. Qed.
Print Assumptions C87_final.
(** Two texts that begin with the same wrong text are rejected alike. *)
Corollary C87_prefix : forall s m r r', compile s false = Err (Msg m) -> final_message m -> no_star r -> no_star r' ->
  compile (s ++ r) false = compile (s ++ r') false.
Proof. intros s m r r' H F N N'. rewrite (C87_final s m r), (C87_final s m r'); auto. Qed.
Print Assumptions C87_prefix.

Definition t_ := list_ascii_of_string.
Example C87_final_example :
  compile (t_ "main(a){return(a+1}") false = Err (Msg "expect ')' after 'return' statement, got '}'") /\
  final_message "expect ')' after 'return' statement, got '}'" /\ no_star (t_ " f(){ more /* text */ */") /\
  compile (t_ "main(a){return(a+1} f(){ more /* text */ */") false = Err (Msg "expect ')' after 'return' statement, got '}'").
Proof.
  assert (E : compile (t_ "main(a){return(a+1}") false = Err (Msg "expect ')' after 'return' statement, got '}'")) by (vm_compute; reflexivity).
  assert (F : final_message "expect ')' after 'return' statement, got '}'").
  { left. exists "expect ')' after 'return' statement", "}"%char. split; [cbn; tauto|]. split; [split; discriminate|reflexivity]. }
  split; [exact E|]. split; [exact F|]. assert (N : no_star (t_ " f(){ more /* text */ */")) by discriminate.
  split; [exact N|]. exact (C87_final _ _ _ E F N).
Qed.

(** The restrictions are needed: a '=' that is wrong may become a "==" that
    is right; ... *)
Theorem C87_equal_refuted : exists s m c r, In m expectations /\ compile s false = Err (Msg (m ++ ", got '" ++ fmt_c c ++ "'")) /\
  no_star r /\ exists md, compile (s ++ r) false = Ok md tt.
Proof.
  exists (t_ "main(a){a?a:a="), "expect ';' after expression statement", "="%char, (t_ "=1;}").
  split; [cbn; tauto|]. split; [vm_compute; reflexivity|]. split; [discriminate|]. eexists. vm_compute. reflexivity.
Qed.
(** ... a '/' that is wrong may begin a comment; ... *)
Theorem C87_comment_refuted : exists s m r, compile s false = Err (Msg m) /\ final_message m /\
  exists md, compile (s ++ r) false = Ok md tt.
Proof.
  exists (t_ "main(){return/"), "expect '(' or ';' after 'return'", (t_ "**/;}").
  split; [vm_compute; reflexivity|]. split; [right; right; right; right; right; cbn; tauto|]. eexists. vm_compute. reflexivity.
Qed.
(** ... and operands that are no lvalues may get a subscript. *)
Theorem C87_operand_refuted :
  (exists s r, compile s false = Err (Msg "left operand of assignment must be an lvalue") /\ no_star r /\ exists md, compile (s ++ r) false = Ok md tt) /\
  (exists s r, compile s false = Err (Msg "expected lvalue after '--'") /\ no_star r /\ exists md, compile (s ++ r) false = Ok md tt).
Proof.
  split.
  - exists (t_ "main(){1="), (t_ "=2;}"). split; [vm_compute; reflexivity|]. split; [discriminate|]. eexists. vm_compute. reflexivity.
  - exists (t_ "main(){--main"), (t_ "[0];}"). split; [vm_compute; reflexivity|]. split; [discriminate|]. eexists. vm_compute. reflexivity.
Qed.
Print Assumptions C87_equal_refuted.
Print Assumptions C87_comment_refuted.
Print Assumptions C87_operand_refuted.

Example C87_catalogue_example :
  compile (t_ "f(){auto x; y = x;}") false = Err (Msg "undefined identifier 'y'") /\
  diagnostic (t_ "f(){auto x; y = x;}") "undefined identifier 'y'" /\
  ~ diagnostic (t_ "f(){auto x; y = x;}") "undefined identifier 'z'".
Proof.
  assert (E : compile (t_ "f(){auto x; y = x;}") false = Err (Msg "undefined identifier 'y'")) by (vm_compute; reflexivity).
  split; [exact E|]. split; [exact (C87_catalogue _ _ _ E)|].
  intros H. remember "undefined identifier 'z'"%string as t eqn:ET. destruct H as [m K|m K|m c K Q|m c K Q|c Q|c Q| | |x Q|x Q]; subst; try discriminate ET.
  - cbn in K; repeat (destruct K as [K|K]; [discriminate K|]); contradiction.
  - cbn in K; repeat (destruct K as [K|K]; [discriminate K|]); contradiction.
  - cbn in K; repeat (destruct K as [<-|K]; [discriminate ET|]); contradiction.
  - destruct Q as (rs & N & -> & Q). destruct rs as [|c rs]; [destruct (N eq_refl)|]. apply Forall_inv in Q. destruct Q as (Q & _).
    rewrite <- go_string_concat in ET. unfold go_string in ET. cbn [flat_map] in ET. unfold utf8 in ET.
    destruct (code c <? 128)%Z eqn:B; cbn in ET; injection ET as E1 _.
    + subst c. destruct Q as [Q|Q]; [cbn in Q; repeat (destruct Q as [Q|Q]; [discriminate Q|]); contradiction|]. vm_compute in Q. apply Q. reflexivity.
    + destruct c as [[] [] [] [] [] [] [] []]; vm_compute in E1, B; discriminate.
Qed.
