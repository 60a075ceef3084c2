(** * PropsExamples: the example programs of the repository (C84)
    The texts of examples/*.b compute what their comments say, for every value
    of their parameter [n], from the compiled text to the end of the process. *)
From Coq Require Import List Ascii String ZArith Znumtheory Lia Bool.
From Verif Require Import Base Lexer LexerFacts SpecLex IR Builder Expr Stmt Decl Syntax SpecTree SpecText RenderWf TextTac PropsText PropsSym SpecSem IRSem SpecLink SimFun SimAny SemMono SemEx SemFacts MemFacts Cells PropsExpr SpecRun RunFacts PropsStmt PropsGlobal
  SpecRt Runtime RuntimeFacts PrintfFacts PropsRt Process PropsProc Files SpecFiles PropsCalls.
Import ListNotations.
Open Scope string_scope.
Open Scope list_scope.
Open Scope Z_scope.

Definition newline : list ascii := ["010"%char].

(** ** fizzbuzz.b *)
(** examples/fizzbuzz.b, 1-27 *)
Definition fizz_text := $"/* The following program will print each number from 1 to 100.
   If a number is divisible by 3 or 5, it will print `Fizz` or
   `Buzz` instead. If a number is divisible by both 3 and 5,
   `FizzBuzz` gets printed.
*/

n 100;

main() {
    extrn n;
    auto i;

    while (i++ < n) {
        if (0 == i % 15) {
            write('Fizz');
            write('Buzz');
        } else if (0 == i % 3)
            write('Fizz');
        else if (0 == i % 5)
            write('Buzz');
        else
            printf(""%d"", i);
        write('*n');
    }
}
".
Definition vn := EVar "n".
Definition vi := EVar "i".
Definition write_ (z : Z) := ECall (ECallee "write") (ECons (EInt z) ENil).
Definition divided (k : Z) := EBin (CCmp PEQ) (EInt 0) (EBin (CBin OSRem) vi (EInt k)).
Definition zFizz := 1181317754.
Definition zBuzz := 1114995322.
Definition fizz_if := SIfElse (divided 15) (SBlock (SCons (SExpr (write_ zFizz)) (SCons (SExpr (write_ zBuzz)) SNil)))
  (SIfElse (divided 3) (SExpr (write_ zFizz)) (SIfElse (divided 5) (SExpr (write_ zBuzz)) (SExpr (ECall (ECallee "printf") (ECons (EStr "%d") (ECons vi ENil)))))).
Definition fizz_turn := SBlock (SCons fizz_if (SCons (SExpr (write_ 10)) SNil)).
Definition counting := EBin (CCmp PSLT) (EPost OAdd vi) vn.
Definition fizz_body := SBlock (SCons (SExtrn ["n"]) (SCons (SAuto [("i", -1)]) (SCons (SWhile counting fizz_turn) SNil))).
Definition fizz_tree := [DGlobal "n" [IvInt 100]; DFunction "main" [] fizz_body].
Definition fizz_short := $"n 100;main(){extrn n;auto i;while(i++<n){if(0==i%15){write(1181317754);write(1114995322);}else if(0==i%3)write(1181317754);else if(0==i%5)write(1114995322);else printf(""%d"",i);write(10);}}".
Definition fizz_module := module_for fizz_short.
Lemma fizz_compiles : compile fizz_text false = Ok fizz_module tt.
Proof. vm_compute. reflexivity. Qed.
Lemma fizz_module_of : module_of fizz_tree fizz_module.
Proof. exists [], fizz_short. split; [apply lay_nil|split; [text|vm_compute; reflexivity]]. Qed.

(** The answer for a number: what the comment of the program says. *)
Definition says (i : Z) (s : list ascii) : Prop :=
  ((3 | i) /\ (5 | i) /\ s = $"FizzBuzz") \/ ((3 | i) /\ ~ (5 | i) /\ s = $"Fizz") \/ (~ (3 | i) /\ (5 | i) /\ s = $"Buzz") \/
  (~ (3 | i) /\ ~ (5 | i) /\ numeral 10 i s).
(** The answers for the numbers from [i] on, [k] of them, each on its line. *)
Inductive answers : Z -> nat -> list ascii -> Prop :=
| an_nil i : answers i 0 []
| an_cons i k s out : says i s -> answers (i + 1) k out -> answers i (S k) (s ++ newline ++ out).

Lemma cells_bytes st su m0 ws m a l : cells st su (m_byte m0) ws m -> PropsGlobal.bytes_at m0 a l ->
  (forall b v, In (b, v) ws -> apart b 8 a (Z.of_nat (List.length l))) -> PropsGlobal.bytes_at m a l.
Proof.
  intros CE B A i c E. assert (L : (i < List.length l)%nat) by (apply nth_error_Some; congruence). rewrite (ce_else _ _ _ _ _ CE); [exact (B i c E)|].
  intros b v HI. specialize (A b v HI). unfold apart in A. lia.
Qed.
Lemma rem_divides i k : 0 < k -> 0 <= i -> (0 =? Z.rem i k) = true <-> (k | i).
Proof.
  intros K I. rewrite Z.eqb_eq, Z.rem_mod_nonneg by lia. rewrite <- Z.mod_divide by lia. intuition congruence.
Qed.
Section Fizz.
Variables (K : platform) (H : host os) (I : ihost os) (f v : Z) (m0 : memory) (st su : list (Z * Z)) (ai : Z).
Hypothesis LK : linked H I fizz_module.
Hypothesis LIB : with_library K I.
Hypothesis LO : low I.
Hypothesis BY : PropsGlobal.bytes_at m0 (h_lit H 0) ($"%d" ++ [NUL]).
Hypothesis AL : apart ai 8 (h_lit H 0) 3.
Hypothesis NL : apart (h_addr H "n") 8 (h_lit H 0) 3.
Hypothesis FL : apart (h_addr H "fout") 8 (h_lit H 0) 3.
Hypothesis VR : - 2 ^ 63 <= v < 2 ^ 63.
Notation call := (calls H false fizz_tree 1).
Notation sc := (mkScope ["i"] ["n"]).
Notation r := (put "i" ai (fun _ => None)).
Definition fizz_cells (i : Z) (m : memory) : Prop := cells st su (m_byte m0) [(ai, i); (h_addr H "n", v); (h_addr H "fout", f)] m.
Lemma fizz_i m w : forall i, fizz_cells i m -> rvalue H false call sc r 0 vi m w = Val i m w.
Proof. intros i CE. apply (ev_var H false call sc r 0 "i" ai); [eexists; split; reflexivity|]. exact (ce_word _ _ _ _ _ CE 0%nat _ _ eq_refl). Qed.
Lemma fizz_divided m w k i : fizz_cells i m -> 0 < k -> 0 <= i -> exists z, rvalue H false call sc r 0 (divided k) m w = Val z m w /\ (z = 0 <-> ~ (k | i)).
Proof.
  intros CE KP IP. exists (compared PEQ 0 (Z.rem i k)). split.
  - eapply ev_bin; [apply ev_int| |reflexivity]. eapply ev_bin; [apply fizz_i; exact CE|apply ev_int|].
    cbn [operate arith]. destruct (Z.eqb_spec k 0); [lia|]. destruct (Z.eqb_spec k (-1)); [lia|]. rewrite andb_false_r. reflexivity.
  - pose proof (rem_divides i k KP IP) as D. unfold compared, truth. destruct (0 =? Z.rem i k); split; intros X; try discriminate; try reflexivity.
    + exfalso. apply X, D. reflexivity.
    + intros Y. apply D in Y. discriminate Y.
Qed.
Lemma fizz_write k z d m o i : fizz_cells i m -> packed z d -> exists o', goes H false call (RExpr sc k (write_ z)) r m o (Leaves Fall r m o') /\ printed (f + 1) o d o'.
Proof.
  intros CE P. destruct (C63_write K H I fizz_module false fizz_tree 0 z [] d f m o LK LIB eq_refl) as (u & o' & E & PR); auto.
  { rewrite <- (ce_word _ _ _ _ _ CE 2%nat _ _ eq_refl), <- (lk_addr _ _ _ LK). reflexivity. }
  exists o'. split; [|exact PR]. eapply go_expr. eapply ev_call1; [reflexivity|apply ev_int|exact E].
Qed.
Lemma fizz_printf m o i d : fizz_cells i m -> 0 <= i < 2 ^ 63 -> numeral 10 i d ->
  exists o', goes H false call (RExpr sc 0 (ECall (ECallee "printf") (ECons (EStr "%d") (ECons vi ENil)))) r m o (Leaves Fall r m o') /\ printed (f + 1) o d o'.
Proof.
  intros CE IP N.
  destruct (C63_printf_partial K H I fizz_module false fizz_tree 0 (h_lit H 0) ($"%d") [i] (d ++ []) f m o LK LIB eq_refl) as (u & o' & E & PR).
  - rewrite <- (ce_word _ _ _ _ _ CE 2%nat _ _ eq_refl), <- (lk_addr _ _ _ LK). reflexivity.
  - apply literal_string; [eapply cells_bytes; [exact CE|exact BY|]|rewrite <- (lk_lit _ _ _ LK); apply LO|cbn; intuition discriminate|cbn; lia].
    intros b x [E|[E|[E|[]]]]; injection E as <- _; assumption.
  - apply sh_d; [|apply sh_nil]. unfold signed_numeral. destruct (Z.ltb_spec i 0); [lia|exact N].
  - cbn [printable list_ascii_of_string Ascii.eqb Bool.eqb orb]. unfold word. repeat split; lia.
  - rewrite app_nil_r in PR. exists o'. split; [|exact PR]. eapply go_expr. eapply ev_call2; [reflexivity|reflexivity|apply fizz_i; exact CE|exact E].
Qed.
Lemma packed_fizz : packed zFizz ($"Fizz"). Proof. split; [discriminate|]. split; [cbn; lia|]. split; [reflexivity|]. intros x E. discriminate E. Qed.
Lemma packed_buzz : packed zBuzz ($"Buzz"). Proof. split; [discriminate|]. split; [cbn; lia|]. split; [reflexivity|]. intros x E. discriminate E. Qed.
Lemma packed_newline : packed 10 newline. Proof. split; [discriminate|]. split; [cbn; lia|]. split; [reflexivity|]. intros x E. discriminate E. Qed.
Lemma numeral_exists n : 0 <= n < 2 ^ 63 -> exists d, numeral 10 n d.
Proof.
  intros P. destruct (C40_printd n (mkWorld (fun _ => NUL) 0 [] [])) as (s & S & _); [unfold word; lia|]. exists s. unfold signed_numeral in S. destruct (Z.ltb_spec n 0); [lia|exact S].
Qed.
Lemma divides_15 i : (15 | i) <-> (3 | i) /\ (5 | i).
Proof.
  split; [intros [q ->]; split; [exists (q * 5)|exists (q * 3)]; lia|]. intros [[a A] [b B]]. exists (2 * b - a). lia.
Qed.
Lemma fizz_turned m o i : fizz_cells i m -> 0 <= i < 2 ^ 63 ->
  exists o' s, says i s /\ goes H false call (place sc 0 fizz_turn) r m o (Leaves Fall r m o') /\ printed (f + 1) o (s ++ newline) o'.
Proof.
  intros CE IP. destruct (fizz_divided m o 15 i CE) as (z15 & E15 & D15); [lia..|].
  assert (X : exists o1 s, says i s /\ goes H false call (place sc 0 fizz_if) r m o (Leaves Fall r m o1) /\ printed (f + 1) o s o1).
  { unfold fizz_if. cbn [place placeL after litsS litsL lits litsA write_]. rewrite divides_15 in D15. destruct (Z.eqb_spec z15 0) as [Z15|Z15].
    - destruct (fizz_divided m o 3 i CE) as (z3 & E3 & D3); [lia..|]. destruct (Z.eqb_spec z3 0) as [Z3|Z3].
      + destruct (fizz_divided m o 5 i CE) as (z5 & E5 & D5); [lia..|]. destruct (Z.eqb_spec z5 0) as [Z5|Z5].
        * destruct (numeral_exists i IP) as [d N]. destruct (fizz_printf m o i d CE IP N) as (o1 & G & P). exists o1, d.
          split; [unfold says; right; right; right; split; [apply D3; exact Z3|]; split; [apply D5; exact Z5|exact N]|]. split; [|exact P].
          eapply go_if; [exact E15|]. rewrite Z15. eapply go_if; [exact E3|]. rewrite Z3. eapply go_if; [exact E5|]. rewrite Z5. exact G.
        * destruct (fizz_write 0 zBuzz _ m o i CE packed_buzz) as (o1 & G & P). exists o1, ($"Buzz").
          split; [unfold says; right; right; left; split; [tauto|]; split; [destruct (Zdivide_dec 5 i); tauto|reflexivity]|]. split; [|exact P].
          eapply go_if; [exact E15|]. rewrite Z15. eapply go_if; [exact E3|]. rewrite Z3. eapply go_if; [exact E5|]. rewrite (proj2 (Z.eqb_neq z5 0) Z5). exact G.
      + destruct (fizz_write 0 zFizz _ m o i CE packed_fizz) as (o1 & G & P). exists o1, ($"Fizz").
        assert (D : (3 | i)) by (destruct (Zdivide_dec 3 i); tauto).
        split; [unfold says; right; left; split; [exact D|]; split; [tauto|reflexivity]|]. split; [|exact P].
        eapply go_if; [exact E15|]. rewrite Z15. eapply go_if; [exact E3|]. rewrite (proj2 (Z.eqb_neq z3 0) Z3). exact G.
    - destruct (fizz_write 0 zFizz _ m o i CE packed_fizz) as (o1 & G & P). destruct (fizz_write 0 zBuzz _ m o1 i CE packed_buzz) as (o2 & G2 & P2).
      exists o2, ($"FizzBuzz"). assert (D : (3 | i) /\ (5 | i)) by (destruct (Zdivide_dec 3 i), (Zdivide_dec 5 i); tauto).
      split; [left; split; [tauto|]; split; [tauto|reflexivity]|]. split; [|exact (printed_trans _ _ _ _ _ _ P P2)].
      eapply go_if; [exact E15|]. rewrite (proj2 (Z.eqb_neq z15 0) Z15). eapply go_seq; [exact G|]. eapply go_seq; [exact G2|]. apply go_null. }
  destruct X as (o1 & s & SY & G & P). destruct (fizz_write 1 10 _ m o1 i CE packed_newline) as (o2 & G2 & P2). exists o2, s. split; [exact SY|].
  split; [|exact (printed_trans _ _ _ _ _ _ P P2)]. unfold fizz_turn. cbn [place placeL]. eapply go_seq; [exact G|].
  change (after sc fizz_if) with sc. eapply go_seq; [|apply go_null]. exact G2.
Qed.
Lemma fizz_loop : forall k i m o, fizz_cells i m -> 0 <= i -> k = Z.to_nat (v - i) ->
  exists m' o' out, goes H false call (place sc 0 (SWhile counting fizz_turn)) r m o (Leaves Fall r m' o') /\ printed (f + 1) o out o' /\ answers (i + 1) k out.
Proof.
  induction k as [|k IH]; intros i m o CE IP EK;
    assert (B : i < 2 ^ 63) by (pose proof (ce_word _ _ _ _ _ CE 0%nat _ _ eq_refl) as LD; unfold load in LD; destruct (word_ok m ai); [|discriminate];
      destruct (word_of (m_byte m) ai 8); [|discriminate]; injection LD as <-; apply wrap64_range);
    destruct (cells_store _ _ _ _ _ 0 ai i (wrap64 (i + 1)) CE eq_refl (wrap64_range _)) as (m1 & ES & CE1); cbn [change] in CE1;
    assert (EV : rvalue H false call sc r 0 counting m o = Val (compared PSLT i v) m1 o)
      by (eapply ev_bin; [eapply ev_post; [eexists; split; reflexivity|exact (ce_word _ _ _ _ _ CE 0%nat _ _ eq_refl)|exact ES]|
          apply ev_var with (a := h_addr H "n"); [eexists; split; reflexivity|exact (ce_word _ _ _ _ _ CE1 1%nat _ _ eq_refl)]|reflexivity]).
  - exists m1, o, []. split; [|split; [apply printed_nil|constructor]]. cbn [place]. apply go_while_end. rewrite EV. unfold compared. destruct (Z.ltb_spec i v); [lia|reflexivity].
  - assert (L : i < v) by lia. rewrite wrap64_id in CE1 by lia.
    destruct (fizz_turned m1 o (i + 1) CE1) as (o1 & s & SY & G & P); [lia|].
    destruct (IH (i + 1) m1 o1 CE1) as (m' & o' & out & G2 & P2 & AN); [lia..|].
    exists m', o', (s ++ newline ++ out). split; [|split; [rewrite app_assoc; exact (printed_trans _ _ _ _ _ _ P P2)|constructor; auto]].
    cbn [place] in G2 |- *. eapply go_while; [exact EV| |exact G|exact G2]. unfold compared. destruct (Z.ltb_spec i v); [discriminate|lia].
Qed.
End Fizz.
(** The storage the theorems about programs speak of: the words of the variables
    and the characters of the literal are objects of the program, apart from
    each other; there is room for [k] automatic variables. *)
Record ready {W} (H : host W) (k : nat) (vars : list (string * Z)) (lit : Z) (m : memory) : Prop := {
  rd_room : room (h_place H) k (m_stack m) (m_static m);
  rd_word : forall i x v, nth_error vars i = Some (x, v) -> load m (h_addr H x) = Some v;
  rd_apart : forall i j x v y u, nth_error vars i = Some (x, v) -> nth_error vars j = Some (y, u) -> i <> j -> apart (h_addr H x) 8 (h_addr H y) 8;
  rd_lit : forall i, 0 <= i < lit -> accessible m (h_lit H 0 + i) 1 = true;
  rd_lit_apart : forall x v i, In (x, v) vars -> 0 <= i < lit -> apart (h_addr H x) 8 (h_lit H 0 + i) 1
}.
Lemma apart_bytes a b n : 0 < n -> (forall i, 0 <= i < n -> apart a 8 (b + i) 1) -> apart a 8 b n.
Proof.
  intros P A. revert A. pattern n. apply (Zlt_lower_bound_ind _ 1); [|lia]. clear n P. intros n IH P A. destruct (Z.eq_dec n 1) as [->|N]; [specialize (A 0 ltac:(lia)); rewrite Z.add_0_r in A; exact A|].
  pose proof (IH (n - 1) ltac:(lia) ltac:(intros i L; apply A; lia)) as B. pose proof (A (n - 1) ltac:(lia)) as D. unfold apart in *. lia.
Qed.
Lemma ready_cells {W} (H : host W) k vars lit m : ready H k vars lit m ->
  cells (m_stack m) (m_static m) (m_byte m) (map (fun p => (h_addr H (fst p), snd p)) vars) m.
Proof.
  intros [_ A B _ _]. apply cells_start.
  - intros i a v E. rewrite nth_error_map in E. destruct (nth_error vars i) as [[x u]|] eqn:EI; [|discriminate]. injection E as <- <-. eapply A; eauto.
  - intros i j a v b u E1 E2 N. rewrite nth_error_map in E1, E2. destruct (nth_error vars i) as [[x1 u1]|] eqn:EI; [|discriminate]. destruct (nth_error vars j) as [[x2 u2]|] eqn:EJ; [|discriminate].
    injection E1 as <- <-. injection E2 as <- <-. eapply B; eauto.
Qed.
(** For every value [v] of n, the program prints the answers for the numbers from
    1 to v and ends with status 0. *)
Theorem C84_fizzbuzz : compile fizz_text false = Ok fizz_module tt /\
  forall K (H : host os) I v f m o, linked H I fizz_module -> with_library K I -> low I -> PropsGlobal.bytes_at m (h_lit H 0) ($"%d" ++ [NUL]) ->
  ready H 1 [("n", v); ("fout", f)] 3 m ->
  exists o' out, answers 1 (Z.to_nat v) out /\ printed (f + 1) o out o' /\ forall code o2, process_ends I fizz_module m o code o2 <-> code = 0 /\ o2 = o'.
Proof.
  split; [exact fizz_compiles|]. intros K H I v f m o LK LIB LO BY RD.
  pose proof (ready_cells H _ _ _ _ RD) as CE. cbn [map fst snd] in CE. destruct RD as [RM RW RA RL RLA].
  assert (VR : - 2 ^ 63 <= v < 2 ^ 63).
  { specialize (RW 0%nat _ _ eq_refl). unfold load in RW. destruct (word_ok m (h_addr H "n")); [|discriminate]. destruct (word_of (m_byte m) (h_addr H "n") 8); [|discriminate].
    injection RW as <-. apply wrap64_range. }
  destruct (new_auto H "i" (fun _ => None) 0 _ _ _ _ m o RM CE) as (ai & m1 & EA & CE1 & AP & _).
  assert (L1 : apart ai 8 (h_lit H 0) 3) by (apply apart_bytes; [lia|intros i L; apply AP, RL; lia]).
  assert (L2 : apart (h_addr H "n") 8 (h_lit H 0) 3) by (apply apart_bytes; [lia|intros i L; apply (RLA "n" v); [left; reflexivity|lia]]).
  assert (L3 : apart (h_addr H "fout") 8 (h_lit H 0) 3) by (apply apart_bytes; [lia|intros i L; apply (RLA "fout" f); [right; left; reflexivity|lia]]).
  destruct (fizz_loop K H I f v m ((ai, 8) :: m_stack m) (m_static m) ai LK LIB LO BY L1 L2 L3
    VR (Z.to_nat v) 0 m1 o CE1) as (m' & o' & out & G & P & AN); [lia..|f_equal; lia|].
  exists o', out. split; [exact AN|]. split; [exact P|].
  apply (C46_end_partial H I fizz_module (calls H false fizz_tree 1) false fizz_body 0 m o (fun _ => None) m o
    (whole [] fizz_body 0) (fun _ => None) m o (put "i" ai (fun _ => None)) m' o'); [|apply re_here|].
  - constructor; auto; try by_names.
    + intros x args m2 w2. apply (C36_programs_partial _ H I fizz_module fizz_tree false fizz_module_of LK); [by_names|by_regular].
    + exists fizz_tree. split; [exact fizz_module_of|reflexivity].
    + unfold regular. repeat apply conj; cbn; by_conj.
  - unfold whole, fizz_body. cbn [place placeL]. eapply go_seq; [apply go_null|]. eapply go_seq.
    { apply go_auto. cbn [automatics]. unfold andthen. rewrite EA. reflexivity. }
    eapply go_seq; [exact G|apply go_null].
Qed.
Print Assumptions C84_fizzbuzz.

(** ** fibonacci.b *)
(** examples/fibonacci.b, 1-23 *)
Definition fib_text := $"/* This program prints out the n-th fibonacci number. */

n 10;

main() {
    extrn n;
    printf(""%d*n"", fib(n));
}

fib(n) {
    auto a, b, c, i;
    b = 1;
    i = 0;

    while (i++ < n) {
        c = a + b;
        a = b;
        b = c;
    }

    return(a);
}
".
Definition va := EVar "a".
Definition vb := EVar "b".
Definition vc := EVar "c".
Definition fib_turn := SBlock (SCons (SExpr (EAsg None vc (EBin (CBin OAdd) va vb))) (SCons (SExpr (EAsg None va vb)) (SCons (SExpr (EAsg None vb vc)) SNil))).
Definition fib_body := SBlock (SCons (SAuto [("a", -1); ("b", -1); ("c", -1); ("i", -1)]) (SCons (SExpr (EAsg None vb (EInt 1))) (SCons (SExpr (EAsg None vi (EInt 0)))
  (SCons (SWhile counting fib_turn) (SCons (SReturn (Some va)) SNil))))).
Definition fib_format : string := string_of_list_ascii ($"%d" ++ newline).
Definition fib_main := SBlock (SCons (SExtrn ["n"]) (SCons (SExpr (ECall (ECallee "printf") (ECons (EStr fib_format) (ECons (ECall (ECallee "fib") (ECons vn ENil)) ENil)))) SNil)).
Definition fib_tree := [DGlobal "n" [IvInt 10]; DFunction "main" [] fib_main; DFunction "fib" ["n"] fib_body].
Definition fib_short := $"n 10;main(){extrn n;printf(""%d*n"",fib(n));}fib(n){auto a,b,c,i;b=1;i=0;while(i++<n){c=a+b;a=b;b=c;}return(a);}".
Definition fib_module := module_for fib_short.
Lemma fib_compiles : compile fib_text false = Ok fib_module tt.
Proof. vm_compute. reflexivity. Qed.
Lemma fib_module_of : module_of fib_tree fib_module.
Proof. exists [], fib_short. split; [apply lay_nil|split; [text|vm_compute; reflexivity]]. Qed.
(** The Fibonacci numbers: 0, 1, and each the sum of the two before it. *)
Fixpoint fibonacci (n : nat) : Z :=
  match n with
  | O => 0
  | S p => match p with O => 1 | S q => fibonacci p + fibonacci q end
  end.
Lemma fibonacci_next n : fibonacci (S (S n)) = fibonacci (S n) + fibonacci n.
Proof. reflexivity. Qed.
Lemma wrap64_add a b : wrap64 (wrap64 a + wrap64 b) = wrap64 (a + b).
Proof.
  unfold wrap64. f_equal. replace ((a + 2 ^ 63) mod 2 ^ 64 - 2 ^ 63 + ((b + 2 ^ 63) mod 2 ^ 64 - 2 ^ 63) + 2 ^ 63) with ((a + 2 ^ 63) mod 2 ^ 64 + ((b + 2 ^ 63) mod 2 ^ 64 - 2 ^ 63)) by lia.
  rewrite Zplus_mod_idemp_l. replace (a + 2 ^ 63 + ((b + 2 ^ 63) mod 2 ^ 64 - 2 ^ 63)) with ((b + 2 ^ 63) mod 2 ^ 64 + a) by lia. rewrite Zplus_mod_idemp_l. f_equal. lia.
Qed.
Section Fib.
Variables (H : host os) (call : string -> list Z -> act os Z) (v : Z) (st su : list (Z * Z)) (g : byte_map) (a_ b_ c_ i_ n_ : Z).
Notation sc := (mkScope ["i"; "c"; "b"; "a"; "n"] []).
Notation r := (put "i" i_ (put "c" c_ (put "b" b_ (put "a" a_ (put "n" n_ (fun _ => None)))))).
Definition fib_cells (i c b a : Z) (m : memory) : Prop := cells st su g [(i_, i); (c_, c); (b_, b); (a_, a); (n_, v)] m.
Ltac here := eexists; split; reflexivity.
Lemma fib_loop : forall k p c m o, fib_cells (Z.of_nat p) c (wrap64 (fibonacci (S p))) (wrap64 (fibonacci p)) m -> - 2 ^ 63 <= v < 2 ^ 63 -> k = Z.to_nat (v - Z.of_nat p) ->
  exists i' c' b' m', goes H false call (place sc 1 (SWhile counting fib_turn)) r m o (Leaves Fall r m' o) /\
    fib_cells i' c' b' (wrap64 (fibonacci (p + k))) m'.
Proof.
  induction k as [|k IH]; intros p c m o CE VR EK;
    pose proof (load_int64 _ _ _ (ce_word _ _ _ _ _ CE 0%nat _ _ eq_refl)) as B;
    destruct (cells_store _ _ _ _ _ 0 i_ (Z.of_nat p) (wrap64 (Z.of_nat p + 1)) CE eq_refl (wrap64_range _)) as (m1 & ES & CE1); cbn [change] in CE1;
    assert (EV : rvalue H false call sc r 1 counting m o = Val (compared PSLT (Z.of_nat p) v) m1 o)
      by (eapply ev_bin; [eapply ev_post; [here|exact (ce_word _ _ _ _ _ CE 0%nat _ _ eq_refl)|exact ES]|
          apply ev_var with (a := n_); [here|exact (ce_word _ _ _ _ _ CE1 4%nat _ _ eq_refl)]|reflexivity]).
  - do 4 eexists. split; [|rewrite Nat.add_0_r; exact CE1]. cbn [place]. apply go_while_end. rewrite EV. unfold compared. destruct (Z.ltb_spec (Z.of_nat p) v); [lia|reflexivity].
  - assert (L : Z.of_nat p < v) by lia. rewrite wrap64_id in CE1 by lia.
    destruct (cells_store _ _ _ _ _ 1 c_ c (wrap64 (fibonacci (S (S p)))) CE1 eq_refl (wrap64_range _)) as (m2 & ES2 & CE2); cbn [change] in CE2.
    destruct (cells_store _ _ _ _ _ 3 a_ _ (wrap64 (fibonacci (S p))) CE2 eq_refl (wrap64_range _)) as (m3 & ES3 & CE3); cbn [change] in CE3.
    destruct (cells_store _ _ _ _ _ 2 b_ _ (wrap64 (fibonacci (S (S p)))) CE3 eq_refl (wrap64_range _)) as (m4 & ES4 & CE4); cbn [change] in CE4.
    destruct (IH (S p) (wrap64 (fibonacci (S (S p)))) m4 o) as (i' & c' & b' & m' & G & CE'); [unfold fib_cells; rewrite Nat2Z.inj_succ; exact CE4|exact VR|lia|].
    exists i', c', b', m'. split; [|rewrite Nat.add_succ_r; exact CE']. cbn [place] in G |- *.
    eapply go_while; [exact EV|unfold compared; destruct (Z.ltb_spec (Z.of_nat p) v); [discriminate|lia]| |exact G].
    unfold fib_turn. cbn [place placeL]. eapply go_seq; [|eapply go_seq; [|eapply go_seq; [|apply go_null]]]; eapply go_expr.
    + eapply ev_asg; [here|eapply ev_bin; [eapply ev_var; [here|exact (ce_word _ _ _ _ _ CE1 3%nat _ _ eq_refl)]|eapply ev_var; [here|exact (ce_word _ _ _ _ _ CE1 2%nat _ _ eq_refl)]|cbn [operate arith]; rewrite wrap64_add, Z.add_comm, <- fibonacci_next; reflexivity]|exact ES2].
    + eapply ev_asg; [here|eapply ev_var; [here|exact (ce_word _ _ _ _ _ CE2 2%nat _ _ eq_refl)]|exact ES3].
    + eapply ev_asg; [here|eapply ev_var; [here|exact (ce_word _ _ _ _ _ CE3 1%nat _ _ eq_refl)]|exact ES4].
Qed.
End Fib.
(** What a call leaves: the objects there were, with their bytes. *)
Record unharmed (m m' : memory) : Prop := {
  un_stack : m_stack m' = m_stack m;
  un_static : m_static m' = m_static m;
  un_bytes : forall b n x, accessible m b n = true -> b <= x < b + n -> m_byte m' x = m_byte m x
}.
Lemma unharmed_load m m' a v : unharmed m m' -> load m a = Some v -> load m' a = Some v.
Proof.
  intros [U1 U2 U3] LD. destruct (load_accessible _ _ _ LD) as [A _]. unfold load, word_ok in *. rewrite (accessible_objs _ _ _ _ U1 U2).
  destruct ((a mod 8 =? 0) && accessible m a 8); [|discriminate]. rewrite (word_of_ext (m_byte m') (m_byte m)); [exact LD|]. intros x L. eapply U3; eauto.
Qed.
(** The function fib of the program: for every argument, the Fibonacci number as
    a 64-bit word. *)
Lemma fib_called (H : host os) v m o : - 2 ^ 63 <= v < 2 ^ 63 -> room (h_place H) 5 (m_stack m) (m_static m) ->
  exists N m', calls H false fib_tree (S N) "fib" [v] m o = Val (wrap64 (fibonacci (Z.to_nat v))) m' o /\ unharmed m m'.
Proof.
  intros VR RM. pose proof (cells_start m [] ltac:(intros [|i]; discriminate) ltac:(intros [|i]; discriminate)) as CE0.
  destruct (cells_new H 4 _ _ _ _ m v RM CE0 VR) as (n_ & m1a & m1 & EA1 & ES1 & CE1 & AP1 & RM1).
  destruct (new_auto H "a" (put "n" n_ (fun _ => None)) 3 _ _ _ _ m1 o RM1 CE1) as (a_ & m2 & EA2 & CE2 & AP2 & RM2).
  destruct (new_auto H "b" (put "a" a_ (put "n" n_ (fun _ => None))) 2 _ _ _ _ m2 o RM2 CE2) as (b_ & m3 & EA3 & CE3 & AP3 & RM3).
  destruct (new_auto H "c" (put "b" b_ (put "a" a_ (put "n" n_ (fun _ => None)))) 1 _ _ _ _ m3 o RM3 CE3) as (c_ & m4 & EA4 & CE4 & AP4 & RM4).
  destruct (new_auto H "i" (put "c" c_ (put "b" b_ (put "a" a_ (put "n" n_ (fun _ => None))))) 0 _ _ _ _ m4 o RM4 CE4) as (i_ & m5 & EA5 & CE5 & AP5 & _).
  destruct (cells_store _ _ _ _ _ 2 b_ 0 1 CE5 eq_refl ltac:(lia)) as (m6 & ES6 & CE6); cbn [change] in CE6.
  destruct (cells_store _ _ _ _ _ 0 i_ 0 0 CE6 eq_refl ltac:(lia)) as (m7 & ES7 & CE7); cbn [change] in CE7.
  set (call := calls H false fib_tree 0).
  destruct (fib_loop H call v _ _ _ a_ b_ c_ i_ n_ (Z.to_nat v) 0 0 m7 o CE7 VR ltac:(f_equal; lia)) as (i' & c' & b' & m8 & G & CE8). cbn [Nat.add] in CE8.
  set (r := put "i" i_ (put "c" c_ (put "b" b_ (put "a" a_ (put "n" n_ (fun _ => None)))))).
  assert (G' : goes H false call (place (mkScope ["n"] []) 1 fib_body) (put "n" n_ (fun _ => None)) m1 o (Leaves (Return (wrap64 (fibonacci (Z.to_nat v)))) r m8 o)).
  { unfold fib_body. cbn [place placeL]. eapply go_seq.
    { apply go_auto. cbn [automatics]. unfold andthen, done. rewrite EA2, EA3, EA4, EA5. reflexivity. }
    eapply go_seq. { eapply go_expr. eapply ev_asg; [eexists; split; reflexivity|apply ev_int|exact ES6]. }
    eapply go_seq. { eapply go_expr. eapply ev_asg; [eexists; split; reflexivity|apply ev_int|exact ES7]. }
    eapply go_seq; [exact G|]. apply go_seq_left; [|intros []]. apply go_return. eapply ev_var; [eexists; split; reflexivity|]. exact (ce_word _ _ _ _ _ CE8 3%nat _ _ eq_refl). }
  destruct (completes_run H false call (mkScope ["n"] []) 1 fib_body _ _ _ _ _ (co_return H false call _ _ _ _ _ _ _ _ _ G') None eq_refl) as [n R]. cbn [answer] in R.
  exists n, (pop m m8). split.
  - cbn [calls]. change (defined 0 fib_tree "fib" None) with (Some (["n"], fib_body, 1)). cbn iota. unfold invoke. cbn [parameters rev app].
    unfold andthen, alloc_, store_. rewrite EA1, ES1. unfold done.
    destruct (mono_run H false call (calls H false fib_tree n) (fun x args => below_limit _) n n (le_n _) (mkScope ["n"] []) 1 fib_body n n (le_n _) None (put "n" n_ (fun _ => None)) m1 o) as [E|E];
      rewrite R in E; [discriminate E|]. rewrite E. reflexivity.
  - constructor.
    + reflexivity.
    + cbn [pop m_static]. exact (ce_static _ _ _ _ _ CE8).
    + intros b k x A L. cbn [pop m_byte].
      assert (A1 : accessible m1 b k = true) by (eapply accessible_more; [rewrite (ce_stack _ _ _ _ _ CE1); reflexivity|exact (ce_static _ _ _ _ _ CE1)|exact A]).
      assert (A2 : accessible m2 b k = true) by (eapply accessible_more; [rewrite (ce_stack _ _ _ _ _ CE2), (ce_stack _ _ _ _ _ CE1); reflexivity|rewrite (ce_static _ _ _ _ _ CE1); exact (ce_static _ _ _ _ _ CE2)|exact A1]).
      assert (A3 : accessible m3 b k = true) by (eapply accessible_more; [rewrite (ce_stack _ _ _ _ _ CE3), (ce_stack _ _ _ _ _ CE2); reflexivity|rewrite (ce_static _ _ _ _ _ CE2); exact (ce_static _ _ _ _ _ CE3)|exact A2]).
      assert (A4 : accessible m4 b k = true) by (eapply accessible_more; [rewrite (ce_stack _ _ _ _ _ CE4), (ce_stack _ _ _ _ _ CE3); reflexivity|rewrite (ce_static _ _ _ _ _ CE3); exact (ce_static _ _ _ _ _ CE4)|exact A3]).
      apply (ce_else _ _ _ _ _ CE8). specialize (AP1 _ _ A). specialize (AP2 _ _ A1). specialize (AP3 _ _ A2). specialize (AP4 _ _ A3). specialize (AP5 _ _ A4). unfold apart in *.
      intros c y [E|[E|[E|[E|[E|[]]]]]]; injection E as <- _; lia.
Qed.
(** For every value [v] of n, the program prints the v-th Fibonacci number, as far
    as it is one of 64 bits: the number printed is the one it is modulo 2^64, and
    the process ends with status 0. *)
Theorem C84_fibonacci : compile fib_text false = Ok fib_module tt /\
  forall K (H : host os) I v f m o d, linked H I fib_module -> with_library K I -> low I -> PropsGlobal.bytes_at m (h_lit H 0) ($"%d" ++ newline ++ [NUL]) ->
  ready H 5 [("n", v); ("fout", f)] 4 m -> wrap64 (fibonacci (Z.to_nat v)) <> - 2 ^ 63 -> signed_numeral 10 (wrap64 (fibonacci (Z.to_nat v))) d ->
  exists o', printed (f + 1) o (d ++ newline) o' /\ forall code o2, process_ends I fib_module m o code o2 <-> code = 0 /\ o2 = o'.
Proof.
  split; [exact fib_compiles|]. intros K H I v f m o d LK LIB LO BY [RM RW RA RL RLA] NM SN.
  pose proof (RW 0%nat _ _ eq_refl) as LN. pose proof (RW 1%nat _ _ eq_refl) as LF. cbn in LN, LF.
  destruct (fib_called H v m o (load_int64 _ _ _ LN) RM) as (N & m' & E & U).
  assert (BY' : PropsGlobal.bytes_at m' (h_lit H 0) ($"%d" ++ newline ++ [NUL])).
  { intros i c EI. assert (i < 4)%nat by (apply (nth_error_Some ($"%d" ++ newline ++ [NUL])); congruence). rewrite (un_bytes _ _ U _ _ _ (RL (Z.of_nat i) ltac:(lia))); [exact (BY i c EI)|lia]. }
  destruct (C63_printf_partial K H I fib_module false fib_tree N (h_lit H 0) ($"%d" ++ newline) [wrap64 (fibonacci (Z.to_nat v))] (d ++ newline) f m' o LK LIB eq_refl) as (u & o' & EP & PR).
  { apply (unharmed_load _ _ _ _ U). rewrite <- LF, <- (lk_addr _ _ _ LK). reflexivity. }
  { apply literal_string; [rewrite <- app_assoc; exact BY'|rewrite <- (lk_lit _ _ _ LK); apply LO|cbn; intuition discriminate|cbn; lia]. }
  { cbn [list_ascii_of_string app]. apply sh_d; [exact SN|]. apply sh_char; [discriminate|]. apply sh_nil. }
  { cbn [printable list_ascii_of_string app newline Ascii.eqb Bool.eqb orb]. unfold word. split; [apply wrap64_range|]. split; [exact NM|]. right. vm_compute. reflexivity. }
  exists o'. split; [exact PR|].
  apply (C46_end_partial H I fib_module (calls H false fib_tree (S N)) false fib_main 0 m o (fun _ => None) m o
    (whole [] fib_main 0) (fun _ => None) m o (fun _ => None) m' o'); [|apply re_here|].
  - constructor; auto; try by_names.
    + intros x args m2 w2. apply (C36_programs_partial _ H I fib_module fib_tree false fib_module_of LK); [by_names|by_regular].
    + exists fib_tree. split; [exact fib_module_of|reflexivity].
    + unfold regular. repeat apply conj; cbn; by_conj.
  - unfold whole, fib_main. cbn [place placeL]. eapply go_seq; [apply go_null|]. eapply go_seq; [|apply go_null]. eapply go_expr.
    eapply ev_call2; [reflexivity|reflexivity| |exact EP]. eapply ev_call1; [reflexivity|eapply ev_var; [eexists; split; reflexivity|exact LN]|exact E].
Qed.
Print Assumptions C84_fibonacci.
