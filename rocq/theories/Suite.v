(** * Suite: the repository's own tests, run on the model
    The test programs of lang_expr_test.go, lang_prog_test.go and
    examples_test.go with the output they expect; the texts of driver_test.go
    and parser_test.go with the errors they expect; the cases of lexer_test.go.
    [result_sound] makes the computed results statements about the model of the
    compiler, the machine and the library; the checks themselves are tests of
    the model against the authors' expectations, and no more than that. *)
From Coq Require Import List Ascii String ZArith Bool Lia FMapPositive.
From Verif Require Import Base IR SpecSem Lexer Expr Decl IRSem Runtime Process SemEx PropsGlobal PropsProc Exec.
Import ListNotations.
Open Scope string_scope.
Open Scope list_scope.
Open Scope Z_scope.

(** ** A computer *)
(** The objects of the module one after another from the address 4096 on, then
    16 bytes for each function, then [b.fout]. *)
Definition up8 (n : Z) : Z := 8 * ((n + 7) / 8).
Definition bytes_in (g : ginit) : Z :=
  match g with
  | GWord _ => 8
  | GWords n ws => 8 * n
  | GZeros n => 8 * n
  | GBytes bs => up8 (Z.of_nat (List.length bs))
  end.
Fixpoint set_out {A} (name : A -> string) (size : A -> Z) (a : Z) (l : list A) : list (string * Z) * Z :=
  match l with
  | [] => ([], a)
  | x :: r => let '(t, z) := set_out name size (a + size x) r in ((name x, a) :: t, z)
  end.
(** Symbols as keys of a search tree. *)
Definition bit (b : bool) (p : positive) : positive := if b then xI p else xO p.
Fixpoint encode (s : string) : positive :=
  match s with
  | EmptyString => xH
  | String (Ascii b0 b1 b2 b3 b4 b5 b6 b7) r => bit b0 (bit b1 (bit b2 (bit b3 (bit b4 (bit b5 (bit b6 (bit b7 (encode r))))))))
  end.
Fixpoint look_down (a : Z) (t : list (string * Z)) : option string :=
  match t with [] => None | (x, b) :: r => if a =? b then Some x else look_down a r end.
Record plan := mkPlan { pl_globals : list (string * Z); pl_funcs : list (string * Z); pl_fout : Z }.
Definition plan_of (M : module_) : plan :=
  let '(tg, a) := set_out g_name (fun g => bytes_in (g_init g)) 4096 (m_globals M) in
  let '(tf, b) := set_out f_name (fun _ => 16) a (m_funcs M) in
  mkPlan tg tf b.
Definition address (p : plan) : string -> Z :=
  let t := fold_right (fun x t => PositiveMap.add (encode (fst x)) (snd x) t) (PositiveMap.empty Z)
             (pl_funcs p ++ pl_globals p ++ [("b.fout", pl_fout p)]) in
  fun s => match PositiveMap.find (encode s) t with Some a => a | None => 0 end.
Definition fun_at (p : plan) (a : Z) : option string := look_down a (pl_funcs p).
(** Automatic storage grows down from 2^40. *)
Definition down (l : list (Z * Z)) (n : Z) : option Z :=
  Some ((match l with [] => 2 ^ 40 | (a, _) :: _ => a end) - n).
Definition box (M : module_) : ihost os :=
  let p := plan_of M in
  let sym := address p in
  mkIHost os (fun m n => down (m_stack m) n) sym (fun_at p) (library pc (sym "b.fout")).
(** The memory of the process when it starts. *)
Fixpoint words_in (n : nat) (bs : list ascii) : list Z :=
  match n with
  | O => []
  | S n' => fold_right (fun b z => code b + 256 * z) 0 (firstn 8 bs) :: words_in n' (skipn 8 bs)
  end.
Definition init_words (J : ihost os) (g : ginit) : list Z :=
  match g with
  | GWord w => [cvalue J w]
  | GWords n ws => map (cvalue J) ws
  | GZeros n => repeat 0 (Z.to_nat n)
  | GBytes bs => words_in (Z.to_nat (bytes_in g / 8)) bs
  end.
Fixpoint fill (a : Z) (ws : list Z) (t : PositiveMap.t Z) : PositiveMap.t Z :=
  match ws with [] => t | z :: r => fill (a + 8) r (PositiveMap.add (key a) z t) end.
Definition start (M : module_) : emem :=
  let p := plan_of M in
  let B := box M in
  let sym := i_sym B in
  let t := fold_left (fun t g => fill (sym (g_name g)) (init_words B (g_init g)) t) (m_globals M)
             (fill (sym "b.fout") [0] (PositiveMap.empty Z)) in
  mkE t [] [(4096, pl_fout p + 8 - 4096)].

(** ** Running a program *)
(** What the process has written to standard output. *)
Definition stdout (o : os) : list ascii := flat_map (fun x => if fst x =? 1 then snd x else []) (o_out o).
(** The exit code and the standard output of the program [src] given [input];
    [None] if it is not compiled, or does not end within the bound. *)
Definition bound : nat := Z.to_nat 1000000.
Definition result (src input : list ascii) : option (Z * list ascii) :=
  match compile src false with
  | Ok M _ =>
      let p := plan_of M in
      let sym := address p in
      let e := start M in
      if forallb (loaded_oneb (box M) (abs e)) (m_globals M) && is_some (load (abs e) (sym "b.fout")) 0 then
        match ecall pc (sym "b.fout") sym (fun_at p) down M bound "main" [] e (mkEos (map RdByte input) []) with
        | Some (ERet z _ s) | Some (EExit z s) => Some (z, stdout (mkOs [] (rev (s_out s))))
        | None => None
        end
      else None
  | _ => None
  end.
(** The result is what the compiled program does on the computer [box]. *)
Theorem result_sound src input code out : result src input = Some (code, out) ->
  exists M m o', compile src false = Ok M tt /\ with_library pc (box M) /\ loaded (box M) M m /\
    load m (i_sym (box M) "b.fout") = Some 0 /\
    process_ends (box M) M m (mkOs (map RdByte input) []) code o' /\ stdout o' = out.
Proof.
  unfold result. destruct (compile src false) as [M u| |] eqn:CM; try discriminate. destruct u.
  destruct (forallb _ _ && _) eqn:LD; [|discriminate]. apply andb_true_iff in LD. destruct LD as [LD LF].
  destruct (ecall _ _ _ _ _ _ _ _ _ _ _) as [r|] eqn:RE; [|discriminate]. intros E.
  assert (SO : same_os (mkEos (map RdByte input) []) (mkOs (map RdByte input) [])) by (split; reflexivity).
  destruct (ecall_sound pc _ _ _ _ M (box M) (fun _ => eq_refl) (fun _ => eq_refl) (fun _ _ => eq_refl) (fun _ _ _ _ => eq_refl)
    _ _ _ _ _ _ RE (abs (start M)) _ (same_abs _) SO) as (y & Y1 & Y2).
  assert (X : exists o', process_ends (box M) M (abs (start M)) (mkOs (map RdByte input) []) code o' /\ stdout o' = out).
  { destruct r as [z e s|z s], y as [z' m' o'|z' o']; try contradiction; injection E as <- <-.
    - destruct Y2 as (-> & _ & O1 & O2). exists o'. split; [left; exists m'; exact Y1|]. unfold stdout. rewrite O2. reflexivity.
    - destruct Y2 as (-> & O1 & O2). exists o'. split; [right; exact Y1|]. unfold stdout. rewrite O2. reflexivity. }
  destruct X as (o' & X1 & X2). exists M, (abs (start M)), o'. split; [reflexivity|]. split; [intros x args m o _; reflexivity|].
  split; [apply loaded_check, LD|]. split; [apply is_some_eq, LF|]. split; auto.
Qed.
Print Assumptions result_sound.

(** ** The tests *)
Notation "$ s" := (list_ascii_of_string s) (at level 1, s at level 0, only parsing).
Record case := mkCase { c_name : string; c_code : string; c_input : string; c_want : string }.
Fixpoint same_text (a b : list ascii) : bool :=
  match a, b with [], [] => true | x :: a', y :: b' => Ascii.eqb x y && same_text a' b' | _, _ => false end.
Fixpoint begins (a b : list ascii) : bool :=
  match a, b with [], _ => true | x :: a', y :: b' => Ascii.eqb x y && begins a' b' | _, [] => false end.
Fixpoint contains (a b : list ascii) : bool :=
  begins a b || match b with [] => false | _ :: b' => contains a b' end.
Definition passes (c : case) : bool :=
  match result ($ (c_code c)) ($ (c_input c)) with Some (_, out) => same_text out ($ (c_want c)) | None => false end.
Definition failures (l : list case) : list string := map c_name (filter (fun c => negb (passes c)) l).

(** lang_expr_test.go, TestPrecedence *)
Definition TestPrecedence : list case := [
  mkCase "add_mul" "main() {
                printf(""3 + 4 ** 2 -> %d*n"", 3 + 4 * 2);
            }" "" "3 + 4 * 2 -> 11
";
  mkCase "mul_add_mul" "main() {
                printf(""5 ** 2 + 3 ** 4 -> %d*n"", 5 * 2 + 3 * 4);
            }" "" "5 * 2 + 3 * 4 -> 22
";
  mkCase "sub_div" "main() {
                printf(""10 - 6 / 2 -> %d*n"", 10 - 6 / 2);
            }" "" "10 - 6 / 2 -> 7
";
  mkCase "mod_add" "main() {
                printf(""7 %% 3 + 2 -> %d*n"", 7 % 3 + 2);
            }" "" "7 % 3 + 2 -> 3
";
  mkCase "add_lt" "main() {
                printf(""5 + 3 < 9 -> %d*n"", 5 + 3 < 9);
            }" "" "5 + 3 < 9 -> 1
";
  mkCase "lt_eq" "main() {
                printf(""4 < 6 == 1 -> %d*n"", 4 < 6 == 1);
            }" "" "4 < 6 == 1 -> 1
";
  mkCase "eq_and" "main() {
                printf(""3 == 3 & 1 -> %d*n"", 3 == 3 & 1);
            }" "" "3 == 3 & 1 -> 1
";
  mkCase "and_or" "main() {
                printf(""2 & 3 | 4 -> %d*n"", 2 & 3 | 4);
            }" "" "2 & 3 | 4 -> 6
";
  mkCase "mul_add_lt" "main() {
                printf(""2 ** 3 + 4 < 11 -> %d*n"", 2 * 3 + 4 < 11);
            }" "" "2 * 3 + 4 < 11 -> 1
";
  mkCase "mul_ge_eq" "main() {
                printf(""5 ** 2 >= 10 == 1 -> %d*n"", 5 * 2 >= 10 == 1);
            }" "" "5 * 2 >= 10 == 1 -> 1
";
  mkCase "mul_and_add" "main() {
                printf(""4 ** 2 & 3 + 1 -> %d*n"", 4 * 2 & 3 + 1);
            }" "" "4 * 2 & 3 + 1 -> 0
";
  mkCase "div_add_gt_or" "main() {
                printf(""6 / 2 + 1 > 3 | 2 -> %d*n"", 6 / 2 + 1 > 3 | 2);
            }" "" "6 / 2 + 1 > 3 | 2 -> 3
";
  mkCase "div_mod" "main() {
                printf(""10 / 2 %% 3 -> %d*n"", 10 / 2 % 3);
            }" "" "10 / 2 % 3 -> 2
";
  mkCase "mul_or" "main() {
                printf(""0 ** 5 | 3 -> %d*n"", 0 * 5 | 3);
            }" "" "0 * 5 | 3 -> 3
";
  mkCase "mul_lshift" "main() {
                printf(""4 ** 3 << 2 -> %d*n"", 4 * 3 << 2);
            }" "" "4 * 3 << 2 -> 48
";
  mkCase "lshift_lt" "main() {
                printf(""1 << 2 < 5 -> %d*n"", 1 << 2 < 5);
            }" "" "1 << 2 < 5 -> 1
";
  mkCase "sub_rshift" "main() {
                printf(""16 - 8 >> 1 -> %d*n"", 16 - 8 >> 1);
            }" "" "16 - 8 >> 1 -> 4
";
  mkCase "lshift_and" "main() {
                printf(""3 << 2 & 7 -> %d*n"", 3 << 2 & 7);
            }" "" "3 << 2 & 7 -> 4
";
  mkCase "or_rshift" "main() {
                printf(""2 | 4 >> 1 -> %d*n"", 2 | 4 >> 1);
            }" "" "2 | 4 >> 1 -> 2
";
  mkCase "rshift_eq" "main() {
                printf(""8 >> 2 == 2 -> %d*n"", 8 >> 2 == 2);
            }" "" "8 >> 2 == 2 -> 1
";
  mkCase "mul_lshift_add" "main() {
                printf(""5 ** 2 << 1 + 3 -> %d*n"", 5 * 2 << 1 + 3);
            }" "" "5 * 2 << 1 + 3 -> 160
";
  mkCase "mod_lshift" "main() {
                printf(""15 %% 4 << 2 -> %d*n"", 15 % 4 << 2);
            }" "" "15 % 4 << 2 -> 12
";
  mkCase "lshift_gt_and" "main() {
                printf(""1 << 3 > 5 & 2 -> %d*n"", 1 << 3 > 5 & 2);
            }" "" "1 << 3 > 5 & 2 -> 0
";
  mkCase "add_lshift" "main() {
                printf(""12345 + 10 << 4 -> %d*n"", 12345 + 10 << 4);
            }" "" "12345 + 10 << 4 -> 197680
";
  mkCase "div_rshift" "main() {
                printf(""16 / 2 >> 1 -> %d*n"", 16 / 2 >> 1);
            }" "" "16 / 2 >> 1 -> 4
";
  mkCase "and_lshift_or" "main() {
                printf(""7 & 3 << 2 | 8 -> %d*n"", 7 & 3 << 2 | 8);
            }" "" "7 & 3 << 2 | 8 -> 12
";
  mkCase "lshift_ne" "main() {
                printf(""1 << 4 != 15 -> %d*n"", 1 << 4 != 15);
            }" "" "1 << 4 != 15 -> 1
";
  mkCase "rshift_ge" "main() {
                printf(""98765 >> 3 >= 12345 -> %d*n"", 98765 >> 3 >= 12345);
            }" "" "98765 >> 3 >= 12345 -> 1
";
  mkCase "and_eq" "main() {
                printf(""1 & 5 == 5 -> %d*n"", 1 & 5 == 5);
            }" "" "1 & 5 == 5 -> 1
";
  mkCase "and_ne" "main() {
                printf(""0 & 1 != 1 -> %d*n"", 0 & 1 != 1);
            }" "" "0 & 1 != 1 -> 0
";
  mkCase "eq_or" "main() {
                printf(""0 == 0 | 1 -> %d*n"", 0 == 0 | 1);
            }" "" "0 == 0 | 1 -> 1
";
  mkCase "ne_or" "main() {
                printf(""1 != 1 | 2 -> %d*n"", 1 != 1 | 2);
            }" "" "1 != 1 | 2 -> 2
";
  mkCase "and_or" "main() {
                printf(""1 & 2 | 3 -> %d*n"", 1 & 2 | 3);
            }" "" "1 & 2 | 3 -> 3
"].
(** lang_expr_test.go, TestExpressions *)
Definition TestExpressions : list case := [
  mkCase "unary_operators" "main() {
                extrn x;
                auto y;

                printf(""global -x = %d, expect %d*n"", -x, -42);
                x = 0;
                printf(""global !x = %d, expect %d*n"", !x, 1);
                y = 987;
                x = &y;
                printf(""global **x = %d, expect %d*n"", *x, y);

                printf(""local -y = %d, expect %d*n"", -y, -987);
                y = 0;
                printf(""local !y = %d, expect %d*n"", !y, 1);
                x = 42;
                y = &x;
                printf(""local **y = %d, expect %d*n"", *y, x);
            }

            x 42;
            " "" "global -x = -42, expect -42
global !x = 1, expect 1
global *x = 987, expect 987
local -y = -987, expect -987
local !y = 1, expect 1
local *y = 42, expect 42
";
  mkCase "negation_in_conditional_context" "main() {
                extrn x;
                auto y;

                y = x + 100;
                printf(""x = %d, y = %d*n"", x, y);
                if (x)
                    printf(""if (x) WRONG*n"");
                else
                    printf(""if (x) Correct*n"");

                if (y)
                    printf(""if (y) Correct*n"");
                else
                    printf(""if (y) WRONG*n"");

                if (!x)
                    printf(""if (!x) Correct*n"");
                else
                    printf(""if (!x) WRONG*n"");

                if (!y)
                    printf(""if (!y) WRONG*n"");
                else
                    printf(""if (!y) Correct*n"");

                while (!x) {
                    printf(""while (!x) x = %d*n"", x);
                    x = 42;
                }
            }

            x;
            " "" "x = 0, y = 100
if (x) Correct
if (y) Correct
if (!x) Correct
if (!y) Correct
while (!x) x = 0
";
  mkCase "postfix_operators" "incr(x) {
                printf(""increment %d*n"", x++);
                return (x);
            }

            add(a, b) {
                printf(""add %d + %d*n"", a, b);
                return (a + b);
            }

            decr(x) {
                printf(""decrement %d*n"", x--);
                return (x);
            }

            sub(a, b) {
                printf(""subtract %d - %d*n"", a, b);
                return (a - b);
            }

            assign_local(x) {
                auto result;
                printf(""assign local %d*n"", x);
                result = x;
                return (result);
            }

            assign_global(x) {
                extrn g;

                printf(""assign global %d*n"", x);
                g = x;
            }

            main() {
                extrn g;

                printf(""%d*n"", incr(42));
                printf(""%d*n"", add(42, 123));
                printf(""%d*n"", decr(42));
                printf(""%d*n"", sub(42, 123));
                printf(""%d*n"", assign_local(42));
                assign_global(42);
                printf(""%d*n"", g);
            }

            g;
            " "" "increment 42
43
add 42 + 123
165
decrement 42
41
subtract 42 - 123
-81
assign local 42
42
assign global 42
42
";
  mkCase "local_array" "main() {
                auto l[3];

                l[0] = 123;
                l[1] = 'local';
                l[2] = ""string"";
                printf(""local = %d, '%c', *""%s*""*n"", l[0], l[1], l[2]);
            }" "" "local = 123, 'local', ""string""
";
  mkCase "global_array" "g[3] -345, 'foo', ""bar"";

            main() {
                extrn g;

                printf(""global = %d, '%c', *""%s*""*n"", g[0], g[1], g[2]);
                printf(""address = %d, %d, %d*n"", (&g[0]) - g, (&g[1]) - g, (&g[2]) - g);
            }" "" "global = -345, 'foo', ""bar""
address = 0, 8, 16
";
  mkCase "local_mix" "main() {
                auto e, d;
                auto c[1];
                auto b, a;
                auto p;

                a = 11;
                b = 22;
                c[0] = 33;
                d = 44;
                e = 55;

                printf(""%d %d %d %d"", a, b, c - &c, c[0]);
                printf("" %d %d*n"", d, e);
                p = &a;
                printf(""%d %d %d %d"", p[0], p[1], p[2] - &c, p[3]);
                printf("" %d %d*n"", p[4], p[5]);
            }" "" "11 22 8 33 44 55
11 22 8 33 44 55
";
  mkCase "binary_operators" "x 42;

            main() {
                extrn x;
                auto y;

                y = 345;
                printf(""%d + %d -> %d*n"", x, y, x + y);
                printf(""%d + %d -> %d*n"", y, x, y + x);

                printf(""%d - %d -> %d*n"", x, y, x - y);
                printf(""%d - %d -> %d*n"", y, x, y - x);

                printf(""%d ** %d -> %d*n"", x, y, x * y);
                printf(""%d ** %d -> %d*n"", y, x, y * x);

                printf(""%d / %d -> %d*n"", x, y, x / y);
                printf(""%d / %d -> %d*n"", y, x, y / x);

                printf(""%d %% %d -> %d*n"", x, y, x % y);
                printf(""%d %% %d -> %d*n"", y, x, y % x);

                printf(""%d < %d -> %d*n"", x, y, x < y);
                printf(""%d < %d -> %d*n"", y, x, y < x);

                printf(""%d <= %d -> %d*n"", x, y, x <= y);
                printf(""%d <= %d -> %d*n"", y, x, y <= x);

                printf(""%d > %d -> %d*n"", x, y, x > y);
                printf(""%d > %d -> %d*n"", y, x, y > x);

                printf(""%d >= %d -> %d*n"", x, y, x >= y);
                printf(""%d >= %d -> %d*n"", y, x, y >= x);

                printf(""%d == %d -> %d*n"", x, y, x == y);
                printf(""%d == %d -> %d*n"", y, x, y == x);

                printf(""%d != %d -> %d*n"", x, y, x != y);
                printf(""%d != %d -> %d*n"", y, x, y != x);

                printf(""%d & %d -> %d*n"", x, y, x & y);
                printf(""%d & %d -> %d*n"", y, x, y & x);

                printf(""%d | %d -> %d*n"", x, y, x | y);
                printf(""%d | %d -> %d*n"", y, x, y | x);
            }" "" "42 + 345 -> 387
345 + 42 -> 387
42 - 345 -> -303
345 - 42 -> 303
42 * 345 -> 14490
345 * 42 -> 14490
42 / 345 -> 0
345 / 42 -> 8
42 % 345 -> 42
345 % 42 -> 9
42 < 345 -> 1
345 < 42 -> 0
42 <= 345 -> 1
345 <= 42 -> 0
42 > 345 -> 0
345 > 42 -> 1
42 >= 345 -> 0
345 >= 42 -> 1
42 == 345 -> 0
345 == 42 -> 0
42 != 345 -> 1
345 != 42 -> 1
42 & 345 -> 8
345 & 42 -> 8
42 | 345 -> 379
345 | 42 -> 379
";
  mkCase "eq_by_bitmask" "main() {
                auto cval;

                cval = 51;
                if ((cval & 017777) == cval) {
                    printf(""Small positive: %d*n"", cval);
                } else {
                    printf(""Wrong: %d*n"", cval);
                }
            }" "" "Small positive: 51
";
  mkCase "octal_literals" "main() {
                auto v;
                v = 012345;
                printf(""%d*n"", v);
                v = -04567;
                printf(""%d*n"", v);
            }" "" "5349
-2423
"].
(** lang_expr_test.go, TestUnaryOperators *)
Definition TestUnaryOperators : list case := [
  mkCase "prefix_increment" "main() {
                auto x;
                x = 5;
                printf(""%d*n"", ++x);  /* Should print 6 */
                printf(""%d*n"", x);    /* Should print 6 */
            }" "" "6
6
";
  mkCase "prefix_decrement" "main() {
                auto x;
                x = 10;
                printf(""%d*n"", --x);  /* Should print 9 */
                printf(""%d*n"", x);    /* Should print 9 */
            }" "" "9
9
";
  mkCase "prefix_increment_global" "main() {
                extrn x;
                x = 15;
                printf(""%d*n"", ++x);  /* Should print 16 */
                printf(""%d*n"", x);    /* Should print 16 */
            }
            x 0;" "" "16
16
";
  mkCase "prefix_decrement_global" "main() {
                extrn x;
                x = 20;
                printf(""%d*n"", --x);  /* Should print 19 */
                printf(""%d*n"", x);    /* Should print 19 */
            }
            x 0;" "" "19
19
";
  mkCase "nested_unary_operators" "main() {
                auto x;
                x = 5;
                printf(""%d*n"", !!x);     /* Double negation: !(!5) = !0 = 1 */
                printf(""%d*n"", -(-x));   /* Double negation: -(-5) = 5 */
                ++x;                     /* Increment x: 5 -> 6 */
                ++x;                     /* Increment x: 6 -> 7 */
                printf(""%d*n"", x);       /* Final value: 7 */
            }" "" "1
5
7
";
  mkCase "unary_on_expressions" "main() {
                auto x, y, sum;
                x = 3; y = 4;
                printf(""%d*n"", -(x + y));  /* Negate sum: -(3+4) = -7 */
                printf(""%d*n"", !(x * y));  /* Logical not: !(3*4) = !12 = 0 */
                sum = x + y;               /* Store sum: 3+4 = 7 */
                ++sum;                     /* Increment sum: 7 -> 8 */
                printf(""%d*n"", sum);       /* Final sum: 8 */
            }" "" "-7
0
8
";
  mkCase "unary_with_pointers" "main() {
                auto x;
                auto p;
                x = 100;
                p = &x;
                printf(""%d*n"", *p);       /* Dereference: *(&x) = 100 */
                ++x;                      /* Increment original variable: ++100 = 101 */
                printf(""%d*n"", *p);       /* Dereferenced value: 101 */
                printf(""%d*n"", x);        /* Original variable: 101 */
            }" "" "100
101
101
";
  mkCase "unary_with_arrays" "main() {
                auto arr[3];
                auto i;
                arr[0] = 10;
                arr[1] = 20;
                i = 0;
                printf(""%d*n"", ++arr[i]);     /* Increment arr[0]: ++10 = 11 */
                printf(""%d*n"", arr[0]);       /* Check arr[0]: 11 */
                printf(""%d*n"", --arr[++i]);   /* Decrement arr[1]: --20 = 19 */
                printf(""%d*n"", arr[1]);       /* Check arr[1]: 19 */
            }" "" "11
11
19
19
";
  mkCase "unary_edge_cases" "main() {
                auto x, y;
                x = 0;
                y = 1;
                printf(""%d*n"", ++x);  /* Increment 0: ++0 = 1 */
                printf(""%d*n"", --x);  /* Decrement 1: --1 = 0 */
                printf(""%d*n"", !x);   /* Logical not 0: !0 = 1 */
                printf(""%d*n"", !y);   /* Logical not 1: !1 = 0 */
                printf(""%d*n"", -x);   /* Negate 0: -0 = 0 */
                printf(""%d*n"", -y);   /* Negate 1: -1 = -1 */
            }" "" "1
0
1
0
0
-1
"].
(** lang_expr_test.go, TestCompoundAssignments *)
Definition TestCompoundAssignments : list case := [
  mkCase "assign_add" "main() { auto x; x = 10; x =+ 5; printf(""%d*n"", x); }" "" "15
";
  mkCase "assign_subtract" "main() { auto x; x = 10; x =- 3; printf(""%d*n"", x); }" "" "7
";
  mkCase "assign_multiply" "main() { auto x; x = 4; x =* 3; printf(""%d*n"", x); }" "" "12
";
  mkCase "assign_divide" "main() { auto x; x = 15; x =/ 3; printf(""%d*n"", x); }" "" "5
";
  mkCase "assign_modulo" "main() { auto x; x = 17; x =% 5; printf(""%d*n"", x); }" "" "2
";
  mkCase "assign_shift_left" "main() { auto x; x = 2; x =<< 2; printf(""%d*n"", x); }" "" "8
";
  mkCase "assign_shift_right" "main() { auto x; x = 16; x =>> 2; printf(""%d*n"", x); }" "" "4
";
  mkCase "assign_less_or_equal" "main() { auto x; x = 5; x =<= 3; printf(""%d*n"", x); x = 2; x =<= 3; printf(""%d*n"", x); }" "" "0
1
";
  mkCase "assign_less_than" "main() { auto x; x = 5; x =< 5; printf(""%d*n"", x); x = 4; x =< 5; printf(""%d*n"", x); }" "" "0
1
";
  mkCase "assign_greater_or_equal" "main() { auto x; x = 3; x =>= 5; printf(""%d*n"", x); x = 5; x =>= 5; printf(""%d*n"", x); }" "" "0
1
";
  mkCase "assign_greater_than" "main() { auto x; x = 4; x => 5; printf(""%d*n"", x); x = 6; x => 5; printf(""%d*n"", x); }" "" "0
1
";
  mkCase "assign_not_equal" "main() { auto x; x = 5; x =!= 5; printf(""%d*n"", x); x = 5; x =!= 3; printf(""%d*n"", x); }" "" "0
1
";
  mkCase "assign_equal" "main() { auto x; x = 5; x === 5; printf(""%d*n"", x); x = 5; x === 6; printf(""%d*n"", x); }" "" "1
0
";
  mkCase "assign_and" "main() { auto x; x = 12; x =& 10; printf(""%d*n"", x); }" "" "8
";
  mkCase "assign_or" "main() { auto x; x = 12; x =| 10; printf(""%d*n"", x); }" "" "14
"].
(** lang_expr_test.go, TestStrings *)
Definition TestStrings : list case := [
  mkCase "string_literals" "sa ""*t*0x"";
            sb ""foo*ebar"";

            main() {
                extrn sa, sb;

                printf(""*(*)***""*n"");
                printf(""%d %d %d*n"", char(sa, 0), char(sa, 1), char(sa, 2));
                printf(""%d %d %d %d %d*n"", char(sb, 0), char(sb, 1), char(sb, 2), char(sb, 3), char(sb, 4));
            }" "" "{}*""
9 0 120
102 111 111 0 98
";
  mkCase "char_literals" "main() {
                printf(""%d*n"", '*0');
                printf(""%d*n"", '*e');
                printf(""%d*n"", '*t');
                printf(""%d*n"", '*n');
                printf(""%d*n"", '*r');
                printf(""%c*n"", '*(*)***'*""');
            }" "" "0
0
9
10
13
{}*'""
"].
(** lang_prog_test.go, TestFunctions *)
Definition TestFunctions : list case := [
  mkCase "function_definitions" "a() {}
            b();
            c() label:;
            d() label: goto label;
            e() return;
            f(x) return(x);
            g(x) x;
            h(x) if(x) 123;
            i(x) if(x) 123; else 456;
            j(x) while(x);
            k(x) switch(x);
            l(x) switch(x) case 1:;
            m() extrn x;
            n() auto x;

            main() {
                printf(""before a()*n"");
                a();    printf(""after a(), before b()*n"");
                b();    printf(""after b(), before c()*n"");
                c();    printf(""after c(), before e()*n"");
                e();    printf(""after e(), before f()*n"");
                f(42);  printf(""after f(), before g()*n"");
                g(42);  printf(""after g(), before h()*n"");
                h(42);  printf(""after h(), before i()*n"");
                i(42);  printf(""after i(), before j()*n"");
                j(0);   printf(""after j(), before k()*n"");
                k(42);  printf(""after k(), before l()*n"");
                l(42);  printf(""after l(), before m()*n"");
                m();    printf(""after m(), before n()*n"");
                n();    printf(""after n()*n"");
            }" "" "before a()
after a(), before b()
after b(), before c()
after c(), before e()
after e(), before f()
after f(), before g()
after g(), before h()
after h(), before i()
after i(), before j()
after j(), before k()
after k(), before l()
after l(), before m()
after m(), before n()
after n()
";
  mkCase "function_arguments" "func(a, b, c)
            {
                printf(""a = %d, b = '%c', c = *""%s*""*n"", a, b, c);
            }

            main() {
                func(123, 'foo', ""bar"");
            }" "" "a = 123, b = 'foo', c = ""bar""
";
  mkCase "function_ternary_operator" "choose(a, b, c)
            {
                return (a ? b : c);
            }

            main() {
                printf(""%d*n"", choose(1, 123, 456));
                printf(""%d*n"", choose(0, 123, 456));
            }" "" "123
456
";
  mkCase "nested_ternary" "classify(n) {
                return (n > 50 ? 100 : (n > 25 ? 50 : 25));
            }

            sign(n) {
                return (n > 0 ? 1 : (n < 0 ? -1 : 0));
            }

            main() {
                printf(""classify(75) = %d*n"", classify(75));
                printf(""classify(40) = %d*n"", classify(40));
                printf(""classify(10) = %d*n"", classify(10));

                printf(""sign(42) = %d*n"", sign(42));
                printf(""sign(-17) = %d*n"", sign(-17));
                printf(""sign(0) = %d*n"", sign(0));
            }" "" "classify(75) = 100
classify(40) = 50
classify(10) = 25
sign(42) = 1
sign(-17) = -1
sign(0) = 0
";
  mkCase "ternary_in_expression" "main() {
                auto x, y, z, result;

                x = 10;
                y = 20;
                z = 30;

                result = x + (y > 15 ? z : 0);
                printf(""x + (y > 15 ? z : 0) = %d*n"", result);

                result = (x < y ? x : y) * 2;
                printf(""(x < y ? x : y) ** 2 = %d*n"", result);

                printf(""nested: %d*n"", (x > 5 ? (y > 15 ? 100 : 50) : 0));
            }" "" "x + (y > 15 ? z : 0) = 40
(x < y ? x : y) * 2 = 20
nested: 100
";
  mkCase "three_args" "
main() {
	abc(12, 34, 56);
}
abc(a, b, c) {
	printf(""%d %d %d*n"", a, b, c);
}
" "" "12 34 56
"].
(** lang_prog_test.go, TestIndirectCalls *)
Definition TestIndirectCalls : list case := [
  mkCase "indirect_call_basic" "add(a, b) {
                return(a + b);
            }

            func_ptr;

            main() {
                extrn func_ptr;

                func_ptr = add;
                printf(""Result: %d*n"", func_ptr(3, 5));
            }" "" "Result: 8
";
  mkCase "indirect_call_multiple" "add(a, b) { return(a + b); }
            sub(a, b) { return(a - b); }
            mul(a, b) { return(a * b); }

            op;

            main() {
                extrn op;

                op = add;
                printf(""add: %d*n"", op(10, 5));

                op = sub;
                printf(""sub: %d*n"", op(10, 5));

                op = mul;
                printf(""mul: %d*n"", op(10, 5));
            }" "" "add: 15
sub: 5
mul: 50
"].
(** lang_prog_test.go, TestNestedLoops *)
Definition TestNestedLoops : list case := [
  mkCase "nested_while_basic" "main() {
                auto i, j, sum;

                sum = 0;
                i = 0;
                while (i < 3) {
                    j = 0;
                    while (j < 3) {
                        sum = sum + 1;
                        j++;
                    }
                    i++;
                }

                printf(""sum = %d*n"", sum);
            }" "" "sum = 9
";
  mkCase "nested_while_complex" "main() {
                auto i, j, k, count;

                count = 0;
                i = 1;
                while (i <= 2) {
                    j = 1;
                    while (j <= 2) {
                        k = 1;
                        while (k <= 2) {
                            count++;
                            k++;
                        }
                        j++;
                    }
                    i++;
                }

                printf(""count = %d*n"", count);
            }" "" "count = 8
"].
(** lang_prog_test.go, TestGlobals *)
Definition TestGlobals : list case := [
  mkCase "global_scalars" "a;
            b 123;
            c -345, 'foo', ""bar"";

            main() {
                extrn a, b, c;

                printf(""a = %d*n"", a);
                printf(""b = %d*n"", b);
                a = &c;
                printf(""c = %d, '%c', *""%s*""*n"", c, a[1], a[2]);
            }" "" "a = 0
b = 123
c = -345, 'foo', ""bar""
";
  mkCase "global_vectors" "a[];
            b[] 123;
            c[4] -345, 'foo', ""bar"";

            main() {
                extrn a, b, c;

                printf(""a = %d*n"", a[0]);
                printf(""b = %d*n"", b[0]);
                printf(""c = %d, '%c', *""%s*"", %d*n"", c[0], c[1], c[2], c[3]);
            }" "" "a = 0
b = 123
c = -345, 'foo', ""bar"", 0
";
  mkCase "local_scalars" "main() {
                auto a;
                auto b;
                auto c;

                printf(""offset a = %d*n"", (&a) - &c);
                printf(""offset b = %d*n"", (&b) - &c);
                printf(""offset c = %d*n"", (&c) - &c);
            }" "" "offset a = 16
offset b = 8
offset c = 0
";
  mkCase "local_vectors" "main() {
                auto a[124];
                auto b['x'];
                auto c[1];

                printf(""offset a = %d*n"", (&a) - &c);
                printf(""offset b = %d*n"", (&b) - &c);
                printf(""offset c = %d*n"", (&c) - &c);
            }" "" "offset a = 984
offset b = 16
offset c = 0
"].
(** lang_prog_test.go, TestLibbFunctions *)
Definition TestLibbFunctions : list case := [
  mkCase "runtime_write" "main() {
                write('Hello,');
                write(' World');
                write('!*n');
            }" "" "Hello, World!
";
  mkCase "runtime_printf" "main() {
                printf(""Hello, World!*n"");
                printf(""%% %% %%%%*n"");
                printf(""format %%d: %d %d*n"", 123, -123);
                printf(""format %%o: %o %o*n"", 234, -234);
                printf(""format %%c: %c %c*n"", 'foo', 'bar');
                printf(""format %%s: *""%s*"" *""%s*""*n"", ""Hello"", ""World"");
                printf(""unknown format: %q*n"", ""foo"");
            }" "" "Hello, World!
% % %%
format %d: 123 -123
format %o: 352 -352
format %c: foo bar
format %s: ""Hello"" ""World""
unknown format: %q
";
  mkCase "runtime_exit" "main() {
                printf(""before exit()*n"");
                exit();
                printf(""after exit()*n"");
            }" "" "before exit()
";
  mkCase "runtime_char" "main() {
                write(char(""fubar"", 2));
                write(char(""fubar"", 4));
                write(char(""fubar"", 1));
                write(char(""fubar"", 0));
                write(char(""fubar"", 3));
                write('*n');
            }" "" "brufa
";
  mkCase "runtime_lchar" "main() {
                auto str;

                lchar(&str, 0, 'f');
                lchar(&str, 1, 'u');
                lchar(&str, 2, 'b');
                lchar(&str, 3, 'a');
                lchar(&str, 4, 'r');
                lchar(&str, 5, 0);
                printf(""%s*n"", &str);
            }" "" "fubar
";
  mkCase "runtime_nwrite" "main() {
                nwrite(1, ""foobar*n"", 7);
            }" "" "foobar
"].
(** lang_prog_test.go, TestRuntimeRead; the third input of the test has the byte 4 after A, here [read_4] *)
Definition TestRuntimeRead : list case := [
  mkCase "ASCIIAndEOF" "
main() {
    auto c;
    while ((c = read()) != 4) {
        printf(""%d "", c);
    }
    printf(""EOF=%d*n"", c);
}
" "ABC" "65 66 67 EOF=4
";
  mkCase "ImmediateEOF" "
main() {
    auto c;
    while ((c = read()) != 4) {
        printf(""%d "", c);
    }
    printf(""EOF=%d*n"", c);
}
" "" "EOF=4
"].
(** examples_test.go, the tests of name(), lookup() and symbol() *)
Definition TestPDP7Compiler : list case := [
  mkCase "TestPDP7CompilerName" "
name(s) {
	while (*s) {
		write(*s);
		s = &s[1];
	}
}

main() {
	auto csym, sym[8];
	csym = &sym[0];
	sym[2] = 'm';
	sym[3] = 'a';
	sym[4] = 'i';
	sym[5] = 'n';
	sym[6] = 0;
	name(&csym[2]);
	write(':');
	write('*n');
}
" "" "main:
";
  mkCase "TestPDP7CompilerLookup" "
lookup() {
  extrn symtab, symbuf, eof, ns;
  auto np, sp, rp;

  rp = symtab;
  while (rp < ns) {
    np = &rp[2];
    sp = symbuf;
    while (*np==*sp) {
      if (!*np)
        return(rp);
      np = &np[1];
      sp = &sp[1];
    }
    while (*np)
      np = &np[1];
    rp = &np[1];
  }
  sp = symbuf;
  if (ns >= &symtab[290]) {
    error('sf');
    eof = 1;
    return(rp);
  }
  *ns = 0;
  ns[1] = 0;
  ns = &ns[2];
  while (*ns = *sp) {
    ns = &ns[1];
    sp = &sp[1];
  }
  ns = &ns[1];
  return(rp);
}

name(s) {
  while (*s) {
    write(*s);
    s = &s[1];
  }
}

/* minimal stub to satisfy reference from lookup() */
error(code) { return; }

/* storage copied from examples/b.b */
symtab[300] /* class value name */
  1, 5,'a','u','t','o', 0 ,
  1, 6,'e','x','t','r','n', 0 ,
  1,10,'g','o','t','o', 0 ,
  1,11,'r','e','t','u','r','n', 0 ,
  1,12,'i','f', 0 ,
  1,13,'w','h','i','l','e', 0 ,
  1,14,'e','l','s','e', 0 ;

ctab[]
    0,127,127,127,  0,127,127,127,
  127,126,126,127,127,127,127,127,
  127,127,127,127,127,127,127,127,
  127,127,127,127,127,127,127,127,
  126, 34,122,127,127, 44, 47,121,
    6,  7, 42, 40,  9, 41,127, 43,
  124,124,124,124,124,124,124,124,
  124,124,  8,  1, 63, 80, 65, 90,
  127,123,123,123,123,123,123,123,
  123,123,123,123,123,123,123,123,
  123,123,123,123,123,123,123,123,
  123,123,123,  4,127,  5, 48,127,
  127,123,123,123,123,123,123,123,
  123,123,123,123,123,123,123,123,
  123,123,123,123,123,123,123,123,
  123,123,123,  2, 48,  3,127,127;

symbuf[10];
peeksym -1;
peekc;
eof;
line 1;
csym;
ns;
cval;
isn;
nerror;
nauto;

main() {
  extrn ns, symtab, symbuf, csym;
  ns = &symtab[51];
  symbuf[0] = 'm'; symbuf[1] = 'a'; symbuf[2] = 'i'; symbuf[3] = 'n'; symbuf[4] = 0;
  csym = lookup();
  name(&csym[2]);
  write('*n');
}
" "" "main
";
  mkCase "TestPDP7CompilerSymbol" "
lookup() {
  extrn symtab, symbuf, eof, ns;
  auto np, sp, rp;

  rp = symtab;
  while (rp < ns) {
    np = &rp[2];
    sp = symbuf;
    while (*np==*sp) {
      if (!*np)
        return(rp);
      np = &np[1];
      sp = &sp[1];
    }
    while (*np)
      np = &np[1];
    rp = &np[1];
  }
  sp = symbuf;
  if (ns >= &symtab[290]) {
    error('sf');
    eof = 1;
    return(rp);
  }
  *ns = 0;
  ns[1] = 0;
  ns = &ns[2];
  while (*ns = *sp) {
    ns = &ns[1];
    sp = &sp[1];
  }
  ns = &ns[1];
  return(rp);
}

symbol() {
  extrn symbuf, ctab, peeksym, peekc, eof, line, csym, cval;
  auto b, c, ct, sp;

  if (peeksym>=0) {
    c = peeksym;
    peeksym = -1;
    return(c);
  }
  if (peekc) {
    c = peekc;
    peekc = 0;
  } else {
    if (eof)
      return(0);
    c = read();
  }
loop:
  ct = ctab[c];

  if (ct==0) { /* eof */
    eof = 1;
    return(0);
  }

  if (ct==126) { /* white space */
    if (c=='*n')
      line = line+1;
    c = read();
    goto loop;
  }

  if (c=='=')
    return(subseq('=',80,60));

  if (c=='<')
    return(subseq('=',63,62));

  if (c=='>')
    return(subseq('=',65,64));

  if (c=='!')
    return(subseq('=',34,61));

  if (c=='$') {
    if (subseq('(',0,1))
      return(2);
    if (subseq(')',0,1))
      return(3);
  }
  if (c=='/') {
    if (subseq('**',1,0))
      return(43);
com:
    c = read();
com1:
    if (c==4) {
      eof = 1;
      error('**/'); /* eof */
      return(0);
    }
    if (c=='*n')
      line = line+1;
    if (c!='**')
      goto com;
    c = read();
    if (c!='/')
      goto com1;
    c = read();
    goto loop;
  }
  if (ct==124) { /* number */
    cval = 0;
    if (c=='0')
      b = 8;
    else
      b = 10;
    while(c >= '0' & c <= '9') {
      cval = cval*b + c -'0';
      c = read();
    }
    peekc = c;
    return(21);
  }
  if (c=='*'') { /* ' */
    getcc();
    return(21);
  }
  if (ct==123) { /* letter */
    sp = symbuf;
    while(ct==123 | ct==124) {
      if (sp < &symbuf[9]) {
        *sp = c;
        sp = &sp[1];
      }
      ct = ctab[c = read()];
    }
    *sp = 0;
    peekc = c;
    csym = lookup();
    if (csym[0]==1) {
      cval = csym[1];
      return(19); /* keyword */
    }
    return(20); /* name */
  }
  if (ct==127) { /* unknown */
    error('sy');
    c = read();
    goto loop;
  }
  return(ctab[c]);
}

subseq(c,a,b) {
  extrn peekc;

  if (!peekc)
    peekc = read();
  if (peekc != c)
    return(a);
  peekc = 0;
  return(b);
}

getcc() {
  extrn cval;
  auto c;

  cval = 0;
  if ((c = mapch('*'')) < 0)
    return;
  cval = c;
  if ((c = mapch('*'')) < 0)
    return;
  cval = cval * 256 + c;
  if (mapch('*'') >= 0)
    error('cc');
}

mapch(c) {
  extrn peekc;
  auto a;

  if ((a=read())==c)
    return(-1);

  if (a=='*n' | a==0 | a==4) {
    error('cc');
    peekc = a;
    return(-1);
  }

  if (a=='**') {
    a=read();

    if (a=='0')
      return(0);

    if (a=='e')
      return(4);

    if (a=='(')
      return('{');

    if (a==')')
      return('}');

    if (a=='t')
      return('*t');

    if (a=='r')
      return('*r');

    if (a=='n')
      return('*n');
  }
  return(a);
}

name(s) {
  while (*s) {
    write(*s);
    s = &s[1];
  }
}

/* minimal stub to satisfy references */
error(code) { return; }

/* storage copied from examples/b.b */
symtab[300] /* class value name */
  1, 5,'a','u','t','o', 0 ,
  1, 6,'e','x','t','r','n', 0 ,
  1,10,'g','o','t','o', 0 ,
  1,11,'r','e','t','u','r','n', 0 ,
  1,12,'i','f', 0 ,
  1,13,'w','h','i','l','e', 0 ,
  1,14,'e','l','s','e', 0 ;

ctab[]
    0,127,127,127,  0,127,127,127,
  127,126,126,127,127,127,127,127,
  127,127,127,127,127,127,127,127,
  127,127,127,127,127,127,127,127,
  126, 34,122,127,127, 44, 47,121,
    6,  7, 42, 40,  9, 41,127, 43,
  124,124,124,124,124,124,124,124,
  124,124,  8,  1, 63, 80, 65, 90,
  127,123,123,123,123,123,123,123,
  123,123,123,123,123,123,123,123,
  123,123,123,123,123,123,123,123,
  123,123,123,  4,127,  5, 48,127,
  127,123,123,123,123,123,123,123,
  123,123,123,123,123,123,123,123,
  123,123,123,123,123,123,123,123,
  123,123,123,  2, 48,  3,127,127;

symbuf[10];
peeksym -1;
peekc;
eof;
line 1;
csym;
ns;
cval;
isn;
nerror;
nauto;

main() {
  extrn ns, symtab, csym;
  ns = &symtab[51];
  symbol();
  name(&csym[2]);
  write('*n');
}
" "main
" "main
"].
(** examples_test.go, TestCompileAndRun: the programs in examples/; the output contains the text and the exit code is 0 *)
Definition TestCompileAndRun : list case := [
  mkCase "hello_write" "/* The following program will print 'Hello World' to stdout. */

main() {
    write('Hello,');
    write(' World');
    write('!*n');
}
" "" "Hello, World!";
  mkCase "hello_printf" "/* The following program will print 'Hello World' to stdout. */

main() {
    printf(""Hello, World!*n"");
}
" "" "Hello, World!";
  mkCase "example_fibonacci" "/* This program prints out the n-th fibonacci number. */

n 10;

main() {
    extrn n;
    printf(""%d*n"", fib(n));
}

fib(n) {
    auto a, b, c, i;
    b = 1;
    i = 0;

    while (i++ < n) {
        c = a + b;
        a = b;
        b = c;
    }

    return(a);
}
" "" "55
";
  mkCase "example_fizzbuzz" "/* The following program will print each number from 1 to 100.
   If a number is divisible by 3 or 5, it will print `Fizz` or
   `Buzz` instead. If a number is divisible by both 3 and 5,
   `FizzBuzz` gets printed.
*/

n 100;

main() {
    extrn n;
    auto i;

    while (i++ < n) {
        if (0 == i % 15) {
            write('Fizz');
            write('Buzz');
        } else if (0 == i % 3)
            write('Fizz');
        else if (0 == i % 5)
            write('Buzz');
        else
            printf(""%d"", i);
        write('*n');
    }
}
" "" "FizzBuzz"].
(** All that do not do what the tests expect: none. *)
Example TestPrecedence_ok : failures TestPrecedence = [].
Proof. vm_compute. reflexivity. Qed.
Example TestExpressions_ok : failures TestExpressions = [].
Proof. vm_compute. reflexivity. Qed.
Example TestUnaryOperators_ok : failures TestUnaryOperators = [].
Proof. vm_compute. reflexivity. Qed.
Example TestCompoundAssignments_ok : failures TestCompoundAssignments = [].
Proof. vm_compute. reflexivity. Qed.
Example TestStrings_ok : failures TestStrings = [].
Proof. vm_compute. reflexivity. Qed.
Example TestFunctions_ok : failures TestFunctions = [].
Proof. vm_compute. reflexivity. Qed.
Example TestIndirectCalls_ok : failures TestIndirectCalls = [].
Proof. vm_compute. reflexivity. Qed.
Example TestNestedLoops_ok : failures TestNestedLoops = [].
Proof. vm_compute. reflexivity. Qed.
Example TestGlobals_ok : failures TestGlobals = [].
Proof. vm_compute. reflexivity. Qed.
Example TestLibbFunctions_ok : failures TestLibbFunctions = [].
Proof. vm_compute. reflexivity. Qed.
Example TestRuntimeRead_ok : failures TestRuntimeRead = [].
Proof. vm_compute. reflexivity. Qed.
Example TestPDP7Compiler_ok : failures TestPDP7Compiler = [].
Proof. vm_compute. reflexivity. Qed.
Definition read_4 : list ascii := ["A"; ascii_of_nat 4; "B"]%char.
Example TestRuntimeRead_third : match TestRuntimeRead with c :: _ => result ($ (c_code c)) read_4 = Some (0, $"65 EOF=4
") | [] => False end.
Proof. vm_compute. reflexivity. Qed.
Example TestCompileAndRun_ok : map c_name (filter (fun c => negb match result ($ (c_code c)) [] with
  Some (z, o) => (z =? 0) && contains ($ (c_want c)) o | None => false end) TestCompileAndRun) = [].
Proof. vm_compute. reflexivity. Qed.
(** driver_test.go, TestCompile and TestCompileErrors; parser_test.go: [c_input] says whether the text must be
    accepted, [c_want] what the error must contain *)
Definition TestErrors : list case := [
  mkCase "undefined_variable" "main() { x = 10; }" "" "undefined identifier";
  mkCase "unclosed_comment" "/* unclosed comment
main() { }" "" "unclosed comment";
  mkCase "missing_semicolon" "main() { auto x x = 10; }" "" "expect ';' or ','";
  mkCase "unclosed_char_literal" "main() { auto c; c = 'abcdefghij; }" "" "unclosed char literal";
  mkCase "unterminated_string" "main() { write(""hello); }" "" "unterminated string";
  mkCase "undefined_escape" "main() { write(""*x""); }" "" "undefined escape character";
  mkCase "case_outside_switch" "main() { case 1: return(0); }" "" "case' outside of 'switch";
  mkCase "undef_after_global" "x; main() { x = 42; }" "" "undefined identifier";
  mkCase "undef_after_extrn" "main() { extrn x; x = 42; } foo() { x = 123; }" "" "undefined identifier";
  mkCase "extrn_after_call" "main() { x(42); } foo() { extrn x; x = 123; }" "" "function redeclared as variable";
  mkCase "undef_after_call" "main() { x(42); } foo() { x = 123; }" "" "undefined identifier";
  mkCase "undef_after_func" "main() { x(42); } foo() { main = 123; }" "" "undefined identifier";
  mkCase "auto_after_func" "main() { foo(); } foo() { auto main; main = 123; }" "ok" "";
  mkCase "extrn_after_func" "main() { foo(); } foo() { extrn main; main = 123; }" "" "function redeclared as variable";
  mkCase "func_after_func" "main() { exit(0); } main() { exit(1); }" "ok" "";
  mkCase "duplicate_identifier" "main() { auto x, x; }" "" "already defined";
  mkCase "duplicate_identifier_across_auto" "main() { auto x; auto x; }" "" "already defined";
  mkCase "parseErr_0" "f(){ return(42; }" "" "expect ')'";
  mkCase "parseErr_1" "f(){ return(42) }" "" "expect ';'";
  mkCase "parseErr_2" "f(a b) {}" "" "unexpected character";
  mkCase "parseErr_3" "f(,) {}" "" "expect ')' or identifier";
  mkCase "parseErr_4" "g -" "" "expect ival";
  mkCase "parseErr_5" "q[3 1,2;" "" "expect ']' after vector size";
  mkCase "parseErr_6" "main(){ extrn a:; }" "" "expect ';' or ','";
  mkCase "parseErr_7" "main(){ case 1:; }" "" "case' outside of 'switch";
  mkCase "parseOK_0" "f(){ return; } g(){ return(42); }" "ok" "";
  mkCase "parseOK_1" "f(a,b,c) { return(0); }" "ok" "";
  mkCase "parseOK_2" "v[3] 1,2;" "ok" "";
  mkCase "parseOK_3" "w[] 1,2,3;" "ok" "";
  mkCase "parseOK_4" "main(){ extrn a,b; }" "ok" "";
  mkCase "parseOK_src0" "
g  /*TODO id,*/ 'x', ""str"", -123, 456;
id 0;
" "ok" "";
  mkCase "parseOK_src1" "
f(x){
    switch(x){
        case 1:;
        case 'a':;
    }
}
" "ok" "";
  mkCase "hello" "main() {
    printf(""Hello, World!*n"");
}" "ok" "";
  mkCase "arithmetic" "add(a, b) {
    return(a + b);
}
sub(a, b) {
    return(a - b);
}
mul(a, b) {
    return(a * b);
}
main() {
    auto x, y, z;
    x = 10;
    y = 20;
    z = add(x, y);
    z = sub(z, 5);
    z = mul(z, 2);
    return(z);
}" "ok" "";
  mkCase "globals" "counter 0;
values[3] 10, 20, 30;

increment() {
    extrn counter;
    counter = counter + 1;
}

sum_values() {
    extrn values;
    auto i, total;
    total = 0;
    i = 0;
    while (i < 3) {
        total = total + values[i];
        i++;
    }
    return(total);
}

main() {
    increment();
    increment();
    return(sum_values());
}" "ok" "";
  mkCase "conditionals" "max(a, b) {
    if (a > b)
        return(a);
    else
        return(b);
}

abs(n) {
    if (n < 0)
        return(-n);
    return(n);
}

main() {
    auto x, y;
    x = max(10, 20);
    y = abs(-15);
    return(x + y);
}" "ok" "";
  mkCase "loops" "factorial(n) {
    auto result, i;
    result = 1;
    i = 1;
    while (i <= n) {
        result = result * i;
        i++;
    }
    return(result);
}

main() {
    return(factorial(5));
}" "ok" "";
  mkCase "strings" "messages[3] ""Hello"", ""World"", ""Test"";

main() {
    extrn messages;
    printf(""%s*n"", messages[0]);
    printf(""%s*n"", messages[1]);
    printf(""%s*n"", messages[2]);
}" "ok" "";
  mkCase "arrays" "sum_array(arr, n) {
    auto i, sum;
    sum = 0;
    i = 0;
    while (i < n) {
        sum = sum + arr[i];
        i++;
    }
    return(sum);
}

main() {
    auto numbers[5];
    auto i, total;

    /* Initialize array */
    i = 0;
    while (i < 5) {
        numbers[i] = (i + 1) * 10;
        i++;
    }

    /* Sum using function */
    total = sum_array(numbers, 5);

    return(total);  /* Should be 10+20+30+40+50 = 150 */
}" "ok" "";
  mkCase "pointers" "main() {
    auto x, y, ptr;
    x = 100;
    y = 200;

    ptr = &x;
    printf(""x = %d*n"", *ptr);

    ptr = &y;
    printf(""y = %d*n"", *ptr);

    return(*ptr);
}" "ok" "";
  mkCase "switch" "classify(n) {
    switch (n) {
        case 0:
            return(0);
        case 1:
            return(1);
        case 2:
            return(4);
        default:
            return(9);
    }
}

main() {
    return(classify(2));
}" "ok" "";
  mkCase "goto" "main() {
    auto x;
    x = 10;

    if (x > 5)
        goto skip;

    x = 20;

skip:
    return(x);
}" "ok" ""].
Example TestErrors_ok : map c_name (filter (fun c => negb match compile ($ (c_code c)) false with
  | Ok _ _ => String.eqb (c_input c) "ok"
  | Err (Msg e) => String.eqb (c_input c) "" && contains ($ (c_want c)) ($ e)
  | _ => false end) TestErrors) = [].
Proof. vm_compute. reflexivity. Qed.

(** lexer_test.go; the helpers (test_utils.go:160-264) drop the opening quote or the opening of the comment. *)
Definition on {A} (f : L A) (s : list ascii) : option A := match f (mkLexer s false) with Ok a _ => Some a | _ => None end.
Definition fails {A} (f : L A) (s : list ascii) : bool := match f (mkLexer s false) with Err _ => true | _ => false end.
Definition rest_after {A} (f : L A) (s : list ascii) : option (list ascii) := match f (mkLexer s false) with Ok _ l => Some (l_in l) | _ => None end.
Example TestLexerIdentifier_ok : map (fun s => on Identifier ($ s)) ["hello"; "main"; "test123"; "_var"; "var_name"; "x"; " 	 /*c*/ name"] =
  map Some ["hello"; "main"; "test123"; "_var"; "var_name"; "x"; "name"].
Proof. vm_compute. reflexivity. Qed.
Example TestLexerNumber_ok : map (fun s => on Number ($ s)) ["42"; "0"; "123"; "010"; "077"; "0123"] = map Some [42; 0; 123; 8; 63; 83].
Proof. vm_compute. reflexivity. Qed.
Example TestLexerString_ok : map (fun s => on String_ ($ s)) ["hello"""; """"; "hello world"""; "hello*nworld"""; "tab*there"""] =
  map Some ["hello"; ""; "hello world"; "hello
world"; "tab	here"].
Proof. vm_compute. reflexivity. Qed.
Example TestLexerCharacter_ok : map (fun s => on Character ($ s)) ["a'"; "ab'"; "*n'"; "*t'"] = map Some [97; Z.lor (Z.shiftl 97 8) 98; 10; 9].
Proof. vm_compute. reflexivity. Qed.
Example TestLexerWhitespace_ok : map (fun s => option_map (@hd_error ascii) (rest_after Whitespace ($ s)))
  ["   hello"; "		hello"; "

hello"; " 	
 hello"; "/* comment */ hello"; "/"] = map Some (map Some ["h"; "h"; "h"; "h"; "h"; "/"]%char).
Proof. vm_compute. reflexivity. Qed.
Example TestLexerComment_ok : map (fun s => rest_after Comment ($ s)) [" comment */ rest"; " line1
line2 */ rest"; " ** comment ** */ rest"] = map Some [$" rest"; $" rest"; $" rest"].
Proof. vm_compute. reflexivity. Qed.
Example TestLexerErrors_ok : fails Escape ($"x") && fails String_ ($"unterminated") && fails Character ($"a") && fails Comment ($" unterminated") = true.
Proof. vm_compute. reflexivity. Qed.
Example TestLexer_ExpectChar_ok : on (ExpectChar ")" "expect ')'") ($")") = Some tt /\
  match ExpectChar ")" "oops" (mkLexer ($"x") false) with Err (Msg e) => contains ($"oops, got '") ($ e) = true | _ => False end /\
  match ExpectChar ")" "EOF msg" (mkLexer [] false) with Err (Msg e) => contains ($"EOF msg") ($ e) = true | _ => False end.
Proof. vm_compute. auto. Qed.
