(** * PropsDigits: the example program that computes digits of e (C84) *)
From Coq Require Import List Ascii String ZArith Znumtheory Lia Bool.
From Verif Require Import Base Lexer LexerFacts SpecLex IR Builder Expr Stmt Decl Syntax SpecTree SpecText RenderWf TextTac PropsText PropsSym SpecSem IRSem SpecLink SimFun SimAny SemMono SemEx SemFacts MemFacts Cells PropsExpr SpecRun RunFacts PropsStmt PropsGlobal
  SpecRt Runtime RuntimeFacts PrintfFacts PropsRt Process PropsProc Files SpecFiles PropsCalls PropsExamples.
Import ListNotations.
Open Scope string_scope.
Open Scope list_scope.
Open Scope Z_scope.

(** examples/e-2.b, 1-34 *)
Definition e2_text := $"/* The following program will calculate the constant e-2 to about
   4000 decimal digits, and print it 50 characters to the line in
   groups of 5 characters.  The method is simple output conversion
   of the expansion
     1/2! + 1/3! + ... = .111....
   where the bases of the digits are 2, 3, 4, . . . */

main() {
    extrn n, v;
    auto i, c, col, a;

    i = col = 0;
    while (i < n) {
        v[i++] = 1;
    }
    while (col < 2 * n) {
        a = n + 1;
        c = i = 0;
        while (i < n) {
            c =+ v[i] * 10;
            v[i++] = c % a;
            c = c / a;
            a = a - 1;
        }

        write(c + '0');
        if (!(++col % 5)) {
            write(col % 50 ? ' ' : '*n');
        }
    }
    write('*n*n');
}
v[2000];
n 2000;
".
Definition vv := EVar "v".
Definition vcol := EVar "col".
Definition ones := SWhile (EBin (CCmp PSLT) vi vn) (SBlock (SCons (SExpr (EAsg None (EIdx vv (EPost OAdd vi)) (EInt 1))) SNil)).
Definition pass_ := SWhile (EBin (CCmp PSLT) vi vn) (SBlock
  (SCons (SExpr (EAsg (Some (CBin OAdd)) vc (EBin (CBin OMul) (EIdx vv vi) (EInt 10))))
  (SCons (SExpr (EAsg None (EIdx vv (EPost OAdd vi)) (EBin (CBin OSRem) vc va)))
  (SCons (SExpr (EAsg None vc (EBin (CBin OSDiv) vc va)))
  (SCons (SExpr (EAsg None va (EBin (CBin OSub) va (EInt 1)))) SNil))))).
Definition write_e (e : expr) := SExpr (ECall (ECallee "write") (ECons e ENil)).
Definition digit_ := SBlock
  (SCons (SExpr (EAsg None va (EBin (CBin OAdd) vn (EInt 1))))
  (SCons (SExpr (EAsg None vc (EAsg None vi (EInt 0))))
  (SCons pass_
  (SCons (write_e (EBin (CBin OAdd) vc (EInt 48)))
  (SCons (SIf (ENot (EParen (EBin (CBin OSRem) (EPre OAdd vcol) (EInt 5)))) (SBlock (SCons (write_e (ECond (EBin (CBin OSRem) vcol (EInt 50)) (EInt 32) (EInt 10))) SNil)))
   SNil))))).
Definition digits_ := SWhile (EBin (CCmp PSLT) vcol (EBin (CBin OMul) (EInt 2) vn)) digit_.
Definition e2_body := SBlock (SCons (SExtrn ["n"; "v"]) (SCons (SAuto [("i", -1); ("c", -1); ("col", -1); ("a", -1)])
  (SCons (SExpr (EAsg None vi (EAsg None vcol (EInt 0)))) (SCons ones (SCons digits_ (SCons (write_e (EInt 2570)) SNil)))))).
Definition e2_tree := [DFunction "main" [] e2_body; DVector "v" 2000 []; DGlobal "n" [IvInt 2000]].
Definition e2_short := $"main(){extrn n,v;auto i,c,col,a;i=col=0;while(i<n){v[i++]=1;}while(col<2*n){a=n+1;c=i=0;while(i<n){c=+v[i]*10;v[i++]=c%a;c=c/a;a=a-1;}write(c+48);if(!(++col%5)){write(col%50?32:10);}}write(2570);}v[2000];n 2000;".
Definition e2_module := module_for e2_short.
Lemma e2_compiles : compile e2_text false = Ok e2_module tt.
Proof. vm_compute. reflexivity. Qed.
Lemma e2_module_of : module_of e2_tree e2_module.
Proof. exists [], e2_short. split; [apply lay_nil|split; [text|vm_compute; reflexivity]]. Qed.

(** ** What it is to print *)
Fixpoint factorial (n : nat) : Z := match n with O => 1 | S p => Z.of_nat n * factorial p end.
(** [1/2! + 1/3! + ... + 1/(n+1)!] as a fraction with the denominator [(n+1)!]. *)
Definition series (n : nat) : Z := fold_right Z.add 0 (map (fun k => factorial (S n) / factorial k) (seq 2 n)).
(** The digits in groups of 5, 10 groups on a line; [col] of them are there. *)
Fixpoint grouped (col : Z) (ds : list ascii) : list ascii :=
  match ds with
  | [] => []
  | d :: r => d :: (if (col + 1) mod 5 =? 0 then if (col + 1) mod 50 =? 0 then newline else [" "%char] else []) ++ grouped (col + 1) r
  end.

(** ** Fractions as digits of the bases n+1, ..., 3, 2 *)
Fixpoint num (l : list Z) : Z := match l with [] => 0 | x :: r => x + (Z.of_nat (List.length r) + 2) * num r end.
Fixpoint bounded (l : list Z) : Prop := match l with [] => True | x :: r => 0 <= x < Z.of_nat (List.length r) + 2 /\ bounded r end.
Fixpoint passed (c : Z) (l : list Z) : list Z * Z :=
  match l with
  | [] => ([], c)
  | x :: r => let a := Z.of_nat (List.length r) + 2 in let t := c + x * 10 in let '(r', c') := passed (t / a) r in (t mod a :: r', c')
  end.
Lemma factorial_pos n : 0 < factorial n.
Proof. induction n; cbn [factorial]; nia. Qed.
Lemma num_bound l : bounded l -> 0 <= num l < factorial (S (List.length l)).
Proof.
  induction l as [|x r IH]; intros B; [cbn; lia|]. destruct B as [B1 B2]. specialize (IH B2). cbn [num List.length].
  replace (factorial (S (S (List.length r)))) with ((Z.of_nat (List.length r) + 2) * factorial (S (List.length r))) by (cbn [factorial]; lia). nia.
Qed.
Lemma passed_num l : forall c, c + 10 * num l = num (fst (passed c l)) + factorial (S (List.length l)) * snd (passed c l) /\
  bounded (fst (passed c l)) /\ List.length (fst (passed c l)) = List.length l.
Proof.
  induction l as [|x r IH]; intros c; [cbn [passed fst snd num List.length bounded]; change (factorial 1) with 1; repeat split; lia|]. cbn [passed]. cbv zeta. set (a := Z.of_nat (List.length r) + 2).
  assert (AP : 0 < a) by (unfold a; lia). pose proof (Z.div_mod (c + x * 10) a ltac:(lia)) as X. pose proof (Z.mod_pos_bound (c + x * 10) a AP) as Y.
  destruct (IH ((c + x * 10) / a)) as (E & B & L). destruct (passed ((c + x * 10) / a) r) as [r' c'] eqn:EP. cbn [fst snd] in *.
  cbn [num bounded List.length]. rewrite L. fold a. split; [|split; [split; [exact Y|exact B]|reflexivity]].
  replace (factorial (S (S (List.length r)))) with (a * factorial (S (List.length r))) by (unfold a; cbn [factorial]; lia). nia.
Qed.
Lemma passed_digit l : bounded l -> num (fst (passed 0 l)) = (10 * num l) mod factorial (S (List.length l)) /\ snd (passed 0 l) = 10 * num l / factorial (S (List.length l)) /\
  0 <= snd (passed 0 l) <= 9.
Proof.
  intros B. destruct (passed_num l 0) as (E & B' & L). pose proof (num_bound _ B) as N. pose proof (num_bound _ B') as N'. rewrite L in N'. rewrite Z.add_0_l in E.
  set (q := factorial (S (List.length l))) in *. rewrite Z.mul_comm in E. split; [|split].
  - rewrite (Z.mul_comm 10), E, Z.mul_comm, Z.mod_add by lia. symmetry. apply Z.mod_small. exact N'.
  - rewrite (Z.mul_comm 10), E, (Z.mul_comm q), Z.div_add by lia. rewrite Z.div_small by exact N'. lia.
  - nia.
Qed.
Lemma num_ones n : num (repeat 1 n) = series n /\ bounded (repeat 1 n).
Proof.
  assert (D : forall k n, (k <= n)%nat -> (factorial k | factorial n)).
  { intros k m L. induction L as [|m L IH]; [apply Z.divide_refl|]. cbn [factorial]. apply Z.divide_mul_r. exact IH. }
  split; [|induction n as [|n IH]; cbn [repeat bounded]; auto; split; [lia|exact IH]].
  induction n as [|n IH]; [reflexivity|]. cbn [repeat num]. rewrite repeat_length, IH. unfold series. rewrite seq_S, map_app, fold_right_app. cbn [map fold_right Nat.add].
  assert (F : forall l b, fold_right Z.add b l = fold_right Z.add 0 l + b) by (induction l as [|x l IHl]; intros b; cbn; [lia|rewrite IHl; lia]).
  rewrite Z.div_same by (pose proof (factorial_pos (S (S n))); lia).
  assert (G : forall l, (forall k, In k l -> (k <= S n)%nat) ->
    (Z.of_nat n + 2) * fold_right Z.add 0 (map (fun k => factorial (S n) / factorial k) l) = fold_right Z.add 0 (map (fun k => factorial (S (S n)) / factorial k) l)).
  { induction l as [|k l IHl]; intros A; cbn [map fold_right]; [lia|]. rewrite Z.mul_add_distr_l, IHl by (intros j J; apply A; right; exact J). f_equal.
    rewrite <- Z.divide_div_mul_exact; [|pose proof (factorial_pos k); lia|apply D, A; left; reflexivity]. f_equal. cbn [factorial]. lia. }
  rewrite (F (map (fun k => factorial (S (S n)) / factorial k) (seq 2 n))), <- G by (intros k K; apply in_seq in K; lia). lia.
Qed.

(** ** The words of the vector *)
Fixpoint vec (p : Z) (l : list Z) : list (Z * Z) := match l with [] => [] | x :: r => (p, x) :: vec (p + 8) r end.
Lemma vec_nth l : forall p i, nth_error (vec p l) i = match nth_error l i with Some x => Some (p + 8 * Z.of_nat i, x) | None => None end.
Proof.
  induction l as [|x l IH]; intros p [|i]; cbn [vec nth_error]; auto; [do 2 f_equal; lia|]. rewrite IH. destruct (nth_error l i); auto. do 2 f_equal. lia.
Qed.
Lemma vec_change d : forall p x u t, change (List.length d) u (vec p (d ++ x :: t)) = vec p (d ++ u :: t).
Proof. induction d as [|y d IH]; intros p x u t; cbn [app vec List.length change]; [reflexivity|]. rewrite IH. reflexivity. Qed.
Lemma nth_middle_vec d p x t : nth_error (vec p (d ++ x :: t)) (List.length d) = Some (p + 8 * Z.of_nat (List.length d), x).
Proof. rewrite vec_nth, nth_error_app2, Nat.sub_diag by lia. reflexivity. Qed.
Lemma ev_idx {W} (H : host W) locals call sc r k x a e p i v m w m1 w1 : var_at H sc r x a -> load m a = Some p -> rvalue H locals call sc r k e m w = Val i m1 w1 ->
  load m1 (wrap64 (p + 8 * i)) = Some v -> rvalue H locals call sc r k (EIdx (EVar x) e) m w = Val v m1 w1.
Proof.
  intros V LD E LV. change (rvalue H locals call sc r k (EIdx (EVar x) e)) with (p <~ rvalue H locals call sc r k (EVar x) ;; n <~ rvalue H locals call sc r (k + 0) e ;; load_ (wrap64 (p + 8 * n)))%act.
  unfold andthen. rewrite (ev_var H locals call sc r k x a p m w V LD), Z.add_0_r, E. unfold load_. rewrite LV. reflexivity.
Qed.
Lemma ev_asgidx {W} (H : host W) locals call sc r k x a e1 e2 p i v m w m1 w1 m2 w2 m3 : var_at H sc r x a -> load m a = Some p -> rvalue H locals call sc r k e1 m w = Val i m1 w1 ->
  lits e1 = 0 -> rvalue H locals call sc r k e2 m1 w1 = Val v m2 w2 -> store m2 (wrap64 (p + 8 * i)) v = Some m3 ->
  rvalue H locals call sc r k (EAsg None (EIdx (EVar x) e1) e2) m w = Val v m3 w2.
Proof.
  intros V LD E1 LT E2 ES. change (rvalue H locals call sc r k (EAsg None (EIdx (EVar x) e1) e2)) with
    (a <~ (p <~ rvalue H locals call sc r k (EVar x) ;; n <~ rvalue H locals call sc r (k + 0) e1 ;; done (wrap64 (p + 8 * n))) ;; v <~ rvalue H locals call sc r (k + (0 + lits e1)) e2 ;; _ <~ store_ a v ;; done v)%act.
  unfold andthen. rewrite (ev_var H locals call sc r k x a p m w V LD), !Z.add_0_r, E1. unfold done. rewrite LT, !Z.add_0_r, E2. unfold store_. rewrite ES. reflexivity.
Qed.

Section E2.
Variables (K : platform) (H : host os) (I : ihost os) (f p : Z) (n : nat) (st su : list (Z * Z)) (g : byte_map) (a_ col_ c_ i_ : Z).
Hypothesis LK : linked H I e2_module.
Hypothesis LIB : with_library K I.
Hypothesis PR : 0 <= p /\ p + 8 * Z.of_nat n <= 2 ^ 62.
Notation call := (calls H false e2_tree 1).
Notation sc := (mkScope ["a"; "col"; "c"; "i"] ["v"; "n"]).
Notation r := (put "a" a_ (put "col" col_ (put "c" c_ (put "i" i_ (fun _ => None))))).
Definition e2_cells (a col c i : Z) (l : list Z) (m : memory) : Prop :=
  cells st su g ((a_, a) :: (col_, col) :: (c_, c) :: (i_, i) :: (h_addr H "n", Z.of_nat n) :: (h_addr H "v", p) :: (h_addr H "fout", f) :: vec p l) m.
Ltac here := eexists; split; reflexivity.
Ltac at_ CE j := exact (ce_word _ _ _ _ _ CE j _ _ eq_refl).
(** A new value of the word number [j]. *)
Lemma e2_vec a col c i d x t m u : e2_cells a col c i (d ++ x :: t) m -> List.length (d ++ x :: t) = n -> - 2 ^ 63 <= u < 2 ^ 63 ->
  wrap64 (p + 8 * Z.of_nat (List.length d)) = p + 8 * Z.of_nat (List.length d) /\ load m (p + 8 * Z.of_nat (List.length d)) = Some x /\
  exists m', store m (p + 8 * Z.of_nat (List.length d)) u = Some m' /\ e2_cells a col c i (d ++ u :: t) m'.
Proof.
  intros CE L R. rewrite app_length in L. cbn [List.length] in L. split; [apply wrap64_id; lia|].
  assert (N : nth_error ((a_, a) :: (col_, col) :: (c_, c) :: (i_, i) :: (h_addr H "n", Z.of_nat n) :: (h_addr H "v", p) :: (h_addr H "fout", f) :: vec p (d ++ x :: t)) (7 + List.length d)
    = Some (p + 8 * Z.of_nat (List.length d), x)) by (cbn [Nat.add nth_error]; apply nth_middle_vec).
  split; [exact (ce_word _ _ _ _ _ CE _ _ _ N)|]. destruct (cells_store _ _ _ _ _ _ _ _ u CE N R) as (m' & ES & CE'). exists m'. split; [exact ES|].
  cbn [Nat.add change] in CE'. rewrite vec_change in CE'. exact CE'.
Qed.
Lemma e2_ones : forall t d a col c m o, e2_cells a col c (Z.of_nat (List.length d)) (d ++ t) m -> List.length (d ++ t) = n ->
  exists m', goes H false call (place sc 0 ones) r m o (Leaves Fall r m' o) /\ e2_cells a col c (Z.of_nat n) (d ++ repeat 1 (List.length t)) m'.
Proof.
  induction t as [|x t IH]; intros d a col c m o CE L;
    assert (EV : rvalue H false call sc r 0 (EBin (CCmp PSLT) vi vn) m o = Val (compared PSLT (Z.of_nat (List.length d)) (Z.of_nat n)) m o)
      by (eapply ev_bin; [eapply ev_var; [here|at_ CE 3%nat]|eapply ev_var; [here|at_ CE 4%nat]|reflexivity]);
    unfold compared in EV; rewrite app_length in L; cbn [List.length] in L.
  - exists m. cbn [List.length repeat]. replace (Z.of_nat n) with (Z.of_nat (List.length d)) by lia. split; [|exact CE]. unfold ones. cbn [place]. apply go_while_end. rewrite EV.
    destruct (Z.ltb_spec (Z.of_nat (List.length d)) (Z.of_nat n)); [lia|reflexivity].
  - destruct (cells_store _ _ _ _ _ 3 i_ _ (wrap64 (Z.of_nat (List.length d) + 1)) CE eq_refl (wrap64_range _)) as (m1 & ES1 & CE1); cbn [change] in CE1.
    destruct (e2_vec _ _ _ _ d x t m1 1 CE1) as (WR & _ & m2 & ES2 & CE2); [rewrite app_length; exact L|lia|].
    destruct (IH (d ++ [1]) a col c m2 o) as (m' & G & CE').
    + rewrite app_length, <- app_assoc. cbn [List.length app]. rewrite wrap64_id in CE2 by lia. replace (Z.of_nat (List.length d + 1)) with (Z.of_nat (List.length d) + 1) by lia. exact CE2.
    + rewrite !app_length. cbn [List.length]. lia.
    + exists m'. split; [|rewrite <- app_assoc in CE'; exact CE']. unfold ones in *. cbn [place placeL] in *.
      eapply go_while; [exact EV|destruct (Z.ltb_spec (Z.of_nat (List.length d)) (Z.of_nat n)); [discriminate|lia]| |exact G].
      eapply go_seq; [|apply go_null]. eapply go_expr.
      eapply ev_asgidx; [here|at_ CE 5%nat|eapply ev_post; [here|at_ CE 3%nat|exact ES1]|reflexivity|apply ev_int|rewrite WR; exact ES2].
Qed.
Lemma e2_pass : forall t d c col m o, bounded t -> 0 <= c <= 9 -> e2_cells (Z.of_nat (List.length t) + 1) col c (Z.of_nat (List.length d)) (d ++ t) m -> List.length (d ++ t) = n ->
  exists m', goes H false call (place sc 0 pass_) r m o (Leaves Fall r m' o) /\ e2_cells 1 col (snd (passed c t)) (Z.of_nat n) (d ++ fst (passed c t)) m'.
Proof.
  induction t as [|x t IH]; intros d c col m o BD CR CE L;
    assert (EV : rvalue H false call sc r 0 (EBin (CCmp PSLT) vi vn) m o = Val (compared PSLT (Z.of_nat (List.length d)) (Z.of_nat n)) m o)
      by (eapply ev_bin; [eapply ev_var; [here|at_ CE 3%nat]|eapply ev_var; [here|at_ CE 4%nat]|reflexivity]);
    unfold compared in EV; rewrite app_length in L; cbn [List.length] in L.
  - exists m. cbn [passed fst snd]. replace (Z.of_nat n) with (Z.of_nat (List.length d)) by lia. split; [|exact CE]. unfold pass_. cbn [place]. apply go_while_end. rewrite EV.
    destruct (Z.ltb_spec (Z.of_nat (List.length d)) (Z.of_nat n)); [lia|reflexivity].
  - cbn [bounded] in BD. destruct BD as [B1 B2]. cbn [List.length] in CE. set (a := Z.of_nat (List.length t) + 2) in *.
    replace (Z.of_nat (S (List.length t)) + 1) with a in CE by (unfold a; lia). assert (AR : 2 <= a <= 2 ^ 60) by (unfold a; lia).
    assert (T : 0 <= c + x * 10 < 2 ^ 63) by nia.
    assert (L' : List.length (d ++ x :: t) = n) by (rewrite app_length; exact L).
    destruct (e2_vec _ _ _ _ d x t m 0 CE L' ltac:(lia)) as (WR & LX & _).
    destruct (cells_store _ _ _ _ _ 2 c_ _ (c + x * 10) CE eq_refl ltac:(lia)) as (m1 & ES1 & CE1); cbn [change] in CE1.
    destruct (cells_store _ _ _ _ _ 3 i_ _ (wrap64 (Z.of_nat (List.length d) + 1)) CE1 eq_refl (wrap64_range _)) as (m2 & ES2 & CE2); cbn [change] in CE2.
    assert (RM : Z.rem (c + x * 10) a = (c + x * 10) mod a) by (apply Z.rem_mod_nonneg; lia).
    assert (QU : Z.quot (c + x * 10) a = (c + x * 10) / a) by (apply Z.quot_div_nonneg; lia).
    pose proof (Z.mod_pos_bound (c + x * 10) a ltac:(lia)) as MB.
    destruct (e2_vec _ _ _ _ d x t m2 ((c + x * 10) mod a) CE2 L' ltac:(lia)) as (_ & _ & m3 & ES3 & CE3).
    assert (QB : 0 <= (c + x * 10) / a <= 9).
    { split; [apply Z.div_pos; lia|]. apply Z.lt_succ_r. apply Z.div_lt_upper_bound; [lia|]. nia. }
    destruct (cells_store _ _ _ _ _ 2 c_ _ ((c + x * 10) / a) CE3 eq_refl ltac:(lia)) as (m4 & ES4 & CE4); cbn [change] in CE4.
    destruct (cells_store _ _ _ _ _ 0 a_ _ (a - 1) CE4 eq_refl ltac:(lia)) as (m5 & ES5 & CE5); cbn [change] in CE5.
    destruct (IH (d ++ [(c + x * 10) mod a]) ((c + x * 10) / a) col m5 o B2 QB) as (m' & G & CE').
    + rewrite app_length, <- app_assoc. cbn [List.length app]. rewrite wrap64_id in CE5 by lia. replace (Z.of_nat (List.length d + 1)) with (Z.of_nat (List.length d) + 1) by lia.
      replace (Z.of_nat (List.length t) + 1) with (a - 1) by (unfold a; lia). exact CE5.
    + rewrite !app_length. cbn [List.length]. lia.
    + exists m'. cbn [passed]. cbv zeta. fold a. destruct (passed ((c + x * 10) / a) t) as [t' c'] eqn:EP. cbn [fst snd] in *.
      split; [|rewrite <- app_assoc in CE'; exact CE']. unfold pass_ in *. cbn [place placeL] in *.
      eapply go_while; [exact EV|destruct (Z.ltb_spec (Z.of_nat (List.length d)) (Z.of_nat n)); [discriminate|lia]| |exact G].
      assert (A0 : (a =? 0) = false) by (apply Z.eqb_neq; lia). assert (A1 : (a =? -1) = false) by (apply Z.eqb_neq; lia).
      eapply go_seq; [|eapply go_seq; [|eapply go_seq; [|eapply go_seq; [|apply go_null]]]]; eapply go_expr.
      * eapply ev_asgop; [here| |at_ CE 2%nat| |exact ES1].
        { eapply ev_bin; [eapply ev_idx; [here|at_ CE 5%nat|eapply ev_var; [here|at_ CE 3%nat]|rewrite WR; exact LX]|apply ev_int|]. cbn [operate arith]. rewrite wrap64_id by nia. reflexivity. }
        cbn [operate arith]. rewrite wrap64_id by lia. reflexivity.
      * eapply ev_asgidx; [here|at_ CE1 5%nat|eapply ev_post; [here|at_ CE1 3%nat|exact ES2]|reflexivity| |rewrite WR; exact ES3].
        eapply ev_bin; [eapply ev_var; [here|at_ CE2 2%nat]|eapply ev_var; [here|at_ CE2 0%nat]|]. cbn [operate arith]. rewrite A0, A1, andb_false_r, RM. reflexivity.
      * eapply ev_asg; [here| |exact ES4]. eapply ev_bin; [eapply ev_var; [here|at_ CE3 2%nat]|eapply ev_var; [here|at_ CE3 0%nat]|]. cbn [operate arith]. rewrite A0, A1, andb_false_r, QU. reflexivity.
      * eapply ev_asg; [here| |exact ES5]. eapply ev_bin; [eapply ev_var; [here|at_ CE4 0%nat]|apply ev_int|]. cbn [operate arith]. rewrite wrap64_id by lia. reflexivity.
Qed.
Lemma e2_write k e z d a col c i l m o : e2_cells a col c i l m -> rvalue H false call sc r k e m o = Val z m o -> packed z d ->
  exists o', goes H false call (place sc k (write_e e)) r m o (Leaves Fall r m o') /\ printed (f + 1) o d o'.
Proof.
  intros CE EV P. destruct (C63_write K H I e2_module false e2_tree 0 z [] d f m o LK LIB eq_refl) as (u & o' & E & P'); auto.
  { rewrite <- (ce_word _ _ _ _ _ CE 6%nat _ _ eq_refl), <- (lk_addr _ _ _ LK). reflexivity. }
  exists o'. split; [|exact P']. eapply go_expr. eapply ev_call1; [reflexivity|exact EV|exact E].
Qed.
Lemma packed_one z : 0 <= z < 128 -> exists c, code c = z /\ packed z [c].
Proof. intros R. exists (byte_of z). assert (E : code (byte_of z) = z) by (rewrite code_byte_of; apply Z.mod_small; lia). split; [exact E|]. rewrite <- E at 1. exact (packed_byte (byte_of z)). Qed.
Definition digit (c : ascii) : Prop := 48 <= code c < 58.
Lemma e2_digits : forall k a col c i l m o, e2_cells a col c i l m -> bounded l -> List.length l = n -> 0 <= col -> k = Z.to_nat (2 * Z.of_nat n - col) ->
  exists m' o' ds, goes H false call (place sc 0 digits_) r m o (Leaves Fall r m' o') /\ printed (f + 1) o (grouped col ds) o' /\
    List.length ds = k /\ Forall digit ds /\ positional 10 ds = 10 ^ Z.of_nat k * num l / factorial (S n) /\
    exists a' col' c' i' l', e2_cells a' col' c' i' l' m'.
Proof.
  induction k as [|k IH]; intros a col c i l m o CE BD L CP EK;
    assert (EV : rvalue H false call sc r 0 (EBin (CCmp PSLT) vcol (EBin (CBin OMul) (EInt 2) vn)) m o = Val (compared PSLT col (2 * Z.of_nat n)) m o)
      by (eapply ev_bin; [eapply ev_var; [here|at_ CE 1%nat]|eapply ev_bin; [apply ev_int|eapply ev_var; [here|at_ CE 4%nat]|cbn [operate arith]; rewrite wrap64_id by lia; reflexivity]|reflexivity]);
    unfold compared in EV; pose proof (num_bound l BD) as NB; rewrite L in NB.
  - exists m, o, []. split; [|split; [apply printed_nil|]].
    + unfold digits_. cbn [place]. apply go_while_end. rewrite EV. destruct (Z.ltb_spec col (2 * Z.of_nat n)); [lia|reflexivity].
    + split; [reflexivity|]. split; [constructor|]. split; [|exists a, col, c, i, l; exact CE]. cbn [positional]. change (10 ^ Z.of_nat 0) with 1. rewrite Z.mul_1_l, Z.div_small by exact NB. reflexivity.
  - assert (CL : col < 2 * Z.of_nat n) by lia.
    destruct (cells_store _ _ _ _ _ 0 a_ _ (Z.of_nat n + 1) CE eq_refl ltac:(lia)) as (m1 & ES1 & CE1); cbn [change] in CE1.
    destruct (cells_store _ _ _ _ _ 3 i_ _ 0 CE1 eq_refl ltac:(lia)) as (m2 & ES2 & CE2); cbn [change] in CE2.
    destruct (cells_store _ _ _ _ _ 2 c_ _ 0 CE2 eq_refl ltac:(lia)) as (m3 & ES3 & CE3); cbn [change] in CE3.
    destruct (e2_pass l [] 0 col m3 o BD ltac:(lia)) as (m4 & G4 & CE4); [rewrite L; exact CE3|exact L|]. cbn [app] in CE4.
    destruct (passed_digit l BD) as (NL & NC & CB). destruct (passed_num l 0) as (_ & BD' & L'). rewrite L in NL, NC, L'. set (l' := fst (passed 0 l)) in *. set (dg := snd (passed 0 l)) in *.
    destruct (packed_one (dg + 48) ltac:(lia)) as (ch & CH & PK).
    destruct (e2_write 0 (EBin (CBin OAdd) vc (EInt 48)) (dg + 48) [ch] _ _ _ _ _ m4 o CE4) as (o5 & G5 & P5); [|exact PK|].
    { eapply ev_bin; [eapply ev_var; [here|at_ CE4 2%nat]|apply ev_int|]. cbn [operate arith]. rewrite wrap64_id by lia. reflexivity. }
    destruct (cells_store _ _ _ _ _ 1 col_ _ (wrap64 (col + 1)) CE4 eq_refl (wrap64_range _)) as (m6 & ES6 & CE6); cbn [change] in CE6. rewrite wrap64_id in CE6 by lia.
    assert (X : exists o7, goes H false call (place sc 0 (SIf (ENot (EParen (EBin (CBin OSRem) (EPre OAdd vcol) (EInt 5)))) (SBlock (SCons (write_e (ECond (EBin (CBin OSRem) vcol (EInt 50)) (EInt 32) (EInt 10))) SNil))))
        r m4 o5 (Leaves Fall r m6 o7) /\ printed (f + 1) o5 (if (col + 1) mod 5 =? 0 then if (col + 1) mod 50 =? 0 then newline else [" "%char] else []) o7).
    { assert (ET : rvalue H false call sc r 0 (ENot (EParen (EBin (CBin OSRem) (EPre OAdd vcol) (EInt 5)))) m4 o5 = Val (truth ((col + 1) mod 5 =? 0)) m6 o5).
      { assert (E : rvalue H false call sc r 0 (EBin (CBin OSRem) (EPre OAdd vcol) (EInt 5)) m4 o5 = Val ((col + 1) mod 5) m6 o5).
        { eapply ev_bin; [eapply ev_pre; [here|at_ CE4 1%nat|exact ES6]|apply ev_int|]. rewrite wrap64_id by lia. cbn [operate arith Z.eqb orb]. rewrite andb_false_r, Z.rem_mod_nonneg by lia. reflexivity. }
        change (rvalue H false call sc r 0 (ENot (EParen (EBin (CBin OSRem) (EPre OAdd vcol) (EInt 5)))) m4 o5) with (andthen (rvalue H false call sc r 0 (EBin (CBin OSRem) (EPre OAdd vcol) (EInt 5))) (fun v => done (truth (v =? 0))) m4 o5).
        unfold andthen, done. rewrite E. reflexivity. }
      cbn [place placeL]. destruct ((col + 1) mod 5 =? 0) eqn:M5.
      - destruct (e2_write 0 (ECond (EBin (CBin OSRem) vcol (EInt 50)) (EInt 32) (EInt 10)) (if (col + 1) mod 50 =? 0 then 10 else 32) (if (col + 1) mod 50 =? 0 then newline else [" "%char]) _ _ _ _ _ m6 o5 CE6) as (o7 & G7 & P7).
        { eapply ev_cond; [eapply ev_bin; [eapply ev_var; [here|at_ CE6 1%nat]|apply ev_int|cbn [operate arith Z.eqb orb]; rewrite andb_false_r, Z.rem_mod_nonneg by lia; reflexivity]|]. destruct ((col + 1) mod 50 =? 0); apply ev_int. }
        { destruct ((col + 1) mod 50 =? 0); [exact (packed_byte "010"%char)|exact (packed_byte " "%char)]. }
        exists o7. split; [|exact P7]. eapply go_if; [exact ET|]. cbn [truth Z.eqb]. eapply go_seq; [exact G7|apply go_null].
      - exists o5. split; [|apply printed_nil]. eapply go_if; [exact ET|]. cbn [truth Z.eqb]. apply go_null. }
    destruct X as (o7 & G7 & P7).
    destruct (IH _ _ _ _ _ m6 o7 CE6 BD' L' ltac:(lia) ltac:(lia)) as (m' & o' & ds & G & P & LD & FD & PD & CE').
    exists m', o', (ch :: ds). split; [|split; [|split; [cbn [List.length]; lia|split; [constructor; [unfold digit; lia|exact FD]|split; [|exact CE']]]]].
    + unfold digits_ in *. cbn [place] in *. eapply go_while; [exact EV|destruct (Z.ltb_spec col (2 * Z.of_nat n)); [discriminate|lia]| |exact G].
      unfold digit_. cbn [place placeL]. eapply go_seq.
      { eapply go_expr. eapply ev_asg; [here| |exact ES1]. eapply ev_bin; [eapply ev_var; [here|at_ CE 4%nat]|apply ev_int|]. cbn [operate arith]. rewrite wrap64_id by lia. reflexivity. }
      eapply go_seq. { eapply go_expr. eapply ev_asg; [here| |exact ES3]. eapply ev_asg; [here|apply ev_int|exact ES2]. }
      eapply go_seq; [exact G4|]. eapply go_seq; [exact G5|]. eapply go_seq; [exact G7|]. apply go_null.
    + cbn [grouped]. change (ch :: ?x ++ ?y) with ([ch] ++ x ++ y). eapply printed_trans; [exact P5|]. eapply printed_trans; [exact P7|exact P].
    + cbn [positional]. rewrite LD, PD, CH, NL. replace (dg + 48 - 48) with dg by lia. rewrite NC. set (q := factorial (S n)) in *.
      assert (QP : 0 < q) by apply factorial_pos. rewrite Nat2Z.inj_succ, Z.pow_succ_r by lia.
      rewrite <- Z.div_add_l by lia. f_equal. pose proof (Z.div_mod (10 * num l) q ltac:(lia)). nia.
Qed.
End E2.
(** The vector of the program: [n] words from [p] on. *)
Lemma vec_cells m vars p : forall l, (forall i j a v b u, nth_error vars i = Some (a, v) -> nth_error vars j = Some (b, u) -> i <> j -> apart a 8 b 8) ->
  (forall i a v, nth_error vars i = Some (a, v) -> load m a = Some v) ->
  (forall i x, nth_error l i = Some x -> load m (p + 8 * Z.of_nat i) = Some x /\ forall a v, In (a, v) vars -> apart a 8 (p + 8 * Z.of_nat i) 8) ->
  cells (m_stack m) (m_static m) (m_byte m) (vars ++ vec p l) m.
Proof.
  intros l A B V. assert (S : forall i a v, nth_error (vars ++ vec p l) i = Some (a, v) -> nth_error vars i = Some (a, v) \/
    (List.length vars <= i)%nat /\ exists x, nth_error l (i - List.length vars) = Some x /\ a = p + 8 * Z.of_nat (i - List.length vars) /\ v = x).
  { intros i a v E. destruct (Nat.lt_ge_cases i (List.length vars)) as [L|L]; [rewrite nth_error_app1 in E by exact L; left; exact E|].
    right. split; [exact L|]. rewrite nth_error_app2, vec_nth in E by exact L. destruct (nth_error l (i - List.length vars)) as [x|]; [|discriminate]. injection E as <- <-. eauto. }
  apply cells_start.
  - intros i a v E. destruct (S _ _ _ E) as [E'|(L & x & E' & -> & ->)]; [eapply B; eauto|apply V; exact E'].
  - intros i j a v b u E1 E2 N. destruct (S _ _ _ E1) as [F1|(L1 & x & F1 & -> & ->)]; destruct (S _ _ _ E2) as [F2|(L2 & y & F2 & -> & ->)].
    + eapply A; eauto.
    + apply nth_error_In in F1. eapply V; eauto.
    + apply nth_error_In in F2. apply apart_sym. eapply V; eauto.
    + unfold apart. lia.
Qed.
(** For every number [n] of terms: the digits printed are the first 2n of the sum
    1/2! + ... + 1/(n+1)!, in groups, and two ends of line; the status is 0. *)
Theorem C84_digits : compile e2_text false = Ok e2_module tt /\
  forall K (H : host os) I n p f m o, linked H I e2_module -> with_library K I -> ready H 4 [("n", Z.of_nat n); ("v", p); ("fout", f)] 0 m ->
  0 <= p -> p + 8 * Z.of_nat n <= 2 ^ 62 ->
  (forall i, 0 <= i < Z.of_nat n -> load m (p + 8 * i) <> None /\ forall x, In x ["n"; "v"; "fout"] -> apart (h_addr H x) 8 (p + 8 * i) 8) ->
  exists o' ds, List.length ds = (2 * n)%nat /\ Forall (fun c => 48 <= code c < 58) ds /\ positional 10 ds = 10 ^ (2 * Z.of_nat n) * series n / factorial (n + 1) /\
    printed (f + 1) o (grouped 0 ds ++ newline ++ newline) o' /\ forall code o2, process_ends I e2_module m o code o2 <-> code = 0 /\ o2 = o'.
Proof.
  split; [exact e2_compiles|]. intros K H I n p f m o LK LIB [RM RW RA _ _] P0 P1 V.
  assert (X : exists l, List.length l = n /\ forall i x, nth_error l i = Some x -> load m (p + 8 * Z.of_nat i) = Some x).
  { clear - V. assert (Y : forall k, (k <= n)%nat -> exists l, List.length l = k /\ forall i x, nth_error l i = Some x -> load m (p + 8 * Z.of_nat i) = Some x); [|apply (Y n (le_n _))].
    induction k as [|k IH]; intros L; [exists []; split; auto; intros [|i]; discriminate|]. destruct (IH ltac:(lia)) as (l & LL & A).
    destruct (V (Z.of_nat k) ltac:(lia)) as [B _]. destruct (load m (p + 8 * Z.of_nat k)) as [x|] eqn:E; [|congruence]. exists (l ++ [x]). split; [rewrite app_length; cbn; lia|].
    intros i y N. destruct (Nat.lt_ge_cases i (List.length l)) as [Q|Q]; [rewrite nth_error_app1 in N by exact Q; auto|]. rewrite nth_error_app2 in N by exact Q.
    destruct (i - List.length l)%nat as [|[|j]] eqn:D; cbn in N; try discriminate. injection N as <-. replace i with k by lia. exact E. }
  destruct X as (l0 & L0 & LV).
  assert (CE0 : cells (m_stack m) (m_static m) (m_byte m) ([(h_addr H "n", Z.of_nat n); (h_addr H "v", p); (h_addr H "fout", f)] ++ vec p l0) m).
  { apply vec_cells.
    - intros i j a v b u E1 E2 N. assert (Q : forall j a v, nth_error [(h_addr H "n", Z.of_nat n); (h_addr H "v", p); (h_addr H "fout", f)] j = Some (a, v) ->
        exists x, nth_error [("n", Z.of_nat n); ("v", p); ("fout", f)] j = Some (x, v) /\ a = h_addr H x)
        by (intros [|[|[|j']]] a' v' E; cbn in E; try (destruct j'; discriminate E); injection E as <- <-; eexists; split; reflexivity).
      destruct (Q _ _ _ E1) as (x & F1 & ->). destruct (Q _ _ _ E2) as (y & F2 & ->). eapply RA; eauto.
    - intros [|[|[|i]]] a v E; cbn in E; try (destruct i; discriminate E); injection E as <- <-; [exact (RW 0%nat _ _ eq_refl)|exact (RW 1%nat _ _ eq_refl)|exact (RW 2%nat _ _ eq_refl)].
    - intros i x E. split; [exact (LV i x E)|]. assert (i < n)%nat by (rewrite <- L0; apply nth_error_Some; congruence).
      intros a v HI. destruct (V (Z.of_nat i) ltac:(lia)) as [_ VA]. destruct HI as [E'|[E'|[E'|[]]]]; injection E' as <- _; apply VA; cbn; tauto. }
  cbn [app] in CE0.
  destruct (new_auto H "i" (fun _ => None) 3 _ _ _ _ m o RM CE0) as (i_ & m1 & EA1 & CE1 & _ & RM1).
  destruct (new_auto H "c" (put "i" i_ (fun _ => None)) 2 _ _ _ _ m1 o RM1 CE1) as (c_ & m2 & EA2 & CE2 & _ & RM2).
  destruct (new_auto H "col" (put "c" c_ (put "i" i_ (fun _ => None))) 1 _ _ _ _ m2 o RM2 CE2) as (col_ & m3 & EA3 & CE3 & _ & RM3).
  destruct (new_auto H "a" (put "col" col_ (put "c" c_ (put "i" i_ (fun _ => None)))) 0 _ _ _ _ m3 o RM3 CE3) as (a_ & m4 & EA4 & CE4 & _ & _).
  set (r := put "a" a_ (put "col" col_ (put "c" c_ (put "i" i_ (fun _ => None))))) in *.
  destruct (cells_store _ _ _ _ _ 1 col_ 0 0 CE4 eq_refl ltac:(lia)) as (m5 & ES5 & CE5); cbn [change] in CE5.
  destruct (cells_store _ _ _ _ _ 3 i_ 0 0 CE5 eq_refl ltac:(lia)) as (m6 & ES6 & CE6); cbn [change] in CE6.
  destruct (e2_ones H f p n _ _ _ a_ col_ c_ i_ (conj P0 P1) l0 [] 0 0 0 m6 o CE6 L0) as (m7 & G7 & CE7). cbn [app] in CE7. rewrite L0 in CE7.
  destruct (num_ones n) as [NO BO].
  destruct (e2_digits K H I f p n _ _ _ a_ col_ c_ i_ LK LIB (conj P0 P1) (2 * n) _ _ _ _ _ m7 o CE7 BO (repeat_length _ _) ltac:(lia) ltac:(lia)) as (m8 & o8 & ds & G8 & P8 & LD & FD & PD & a' & col' & c' & i' & l' & CE8).
  destruct (e2_write K H I f p n _ _ _ a_ col_ c_ i_ LK LIB 0 (EInt 2570) 2570 (newline ++ newline) _ _ _ _ _ m8 o8 CE8 eq_refl) as (o9 & G9 & P9).
  { split; [discriminate|]. split; [cbn; lia|]. split; [reflexivity|]. intros x E. discriminate E. }
  exists o9, ds. split; [exact LD|]. split; [exact FD|]. split. { rewrite PD, NO, Nat.add_1_r. do 3 f_equal. lia. }
  split; [exact (printed_trans _ _ _ _ _ _ P8 P9)|].
  apply (C46_end_partial H I e2_module (calls H false e2_tree 1) false e2_body 0 m o (fun _ => None) m o
    (whole [] e2_body 0) (fun _ => None) m o r m8 o9); [|apply re_here|].
  - constructor; auto; try by_names.
    + intros x args m' w'. apply (C36_programs_partial _ H I e2_module e2_tree false e2_module_of LK); [by_names|by_regular].
    + exists e2_tree. split; [exact e2_module_of|reflexivity].
    + unfold regular. repeat apply conj; cbn; by_conj.
  - unfold whole, e2_body. cbn [place placeL]. eapply go_seq; [apply go_null|]. eapply go_seq.
    { apply go_auto. cbn [automatics]. unfold andthen, done. rewrite EA1, EA2, EA3, EA4. reflexivity. }
    eapply go_seq. { eapply go_expr. eapply ev_asg; [eexists; split; reflexivity| |exact ES6]. eapply ev_asg; [eexists; split; reflexivity|apply ev_int|exact ES5]. }
    eapply go_seq; [exact G7|]. eapply go_seq; [exact G8|]. eapply go_seq; [exact G9|]. apply go_null.
Qed.
Print Assumptions C84_digits.

(** ** hello.b and helloworld.b *)
(** examples/hello.b, 1-7 *)
Definition hello_write := $"/* The following program will print 'Hello World' to stdout. */

main() {
    write('Hello,');
    write(' World');
    write('!*n');
}
".
(** examples/helloworld.b, 1-5 *)
Definition hello_printf := $"/* The following program will print 'Hello World' to stdout. */

main() {
    printf(""Hello, World!*n"");
}
".
Definition greeting : list ascii := $"Hello, World!" ++ newline.
Definition zHello := 79600447942444.
Definition zWorld := 35559904013412.
Definition hello_lines := [LWrite zHello; LWrite zWorld; LWrite 8458].
Definition hello_wshort := $"main(){write(79600447942444);write(35559904013412);write(8458);}".
Definition hello_pshort := $"main(){printf(""Hello, World!*n"");}".
Lemma hello_write_of : module_of (script hello_lines) (module_for hello_wshort).
Proof. exists [], hello_wshort. split; [apply lay_nil|split; [text|vm_compute; reflexivity]]. Qed.
Lemma hello_printf_of : module_of (script [LPrintf (string_of_list_ascii greeting)]) (module_for hello_pshort).
Proof. exists [], hello_pshort. split; [apply lay_nil|split; [text|vm_compute; reflexivity]]. Qed.
Theorem C84_hello : compile hello_write false = Ok (module_for hello_wshort) tt /\ compile hello_printf false = Ok (module_for hello_pshort) tt /\
  forall K (H : host os) I M f m o, M = module_for hello_wshort \/ M = module_for hello_pshort -> linked H I M -> with_library K I -> low I -> loaded I M m ->
  load m (i_sym I "b.fout") = Some f ->
  exists o', printed (f + 1) o greeting o' /\ forall code o2, process_ends I M m o code o2 <-> code = 0 /\ o2 = o'.
Proof.
  split; [vm_compute; reflexivity|]. split; [vm_compute; reflexivity|]. intros K H I M f m o [-> | ->] LK LIB LO LD F.
  - change greeting with (List.concat [$"Hello,"; $" World"; $"!" ++ newline]).
    apply (C63_script hello_lines [$"Hello,"; $" World"; $"!" ++ newline] K H I (module_for hello_wshort) f m o hello_write_of LK); auto; [by_names|].
    apply Forall2_cons; [|apply Forall2_cons; [|apply Forall2_cons; [|apply Forall2_nil]]]; cbn [line_out]; (split; [discriminate|]; split; [cbn; lia|]; split; [vm_compute; reflexivity|]; intros x E; discriminate E).
  - change greeting with (List.concat [greeting]).
    apply (C63_script [LPrintf (string_of_list_ascii greeting)] [greeting] K H I (module_for hello_pshort) f m o hello_printf_of LK); auto; [by_names|].
    constructor; [|constructor]. cbn [line_out]. cbv zeta. rewrite list_ascii_of_string_of_list_ascii.
    split; [apply shows_plain; vm_compute; intuition discriminate|]. split; [apply printable_plain; [vm_compute; intuition discriminate|]|split; [vm_compute; intuition discriminate|vm_compute; reflexivity]].
    unfold greeting, newline. cbn [list_ascii_of_string app]. repeat (constructor; [right; vm_compute; reflexivity|]). constructor.
Qed.
Print Assumptions C84_hello.

(** ** Cases *)
Definition nearb (o : option Z) (z : Z) : bool := match o with Some x => x =? z | None => false end.
Definition apartb (a n b k : Z) : bool := (b + k <=? a) || (a + n <=? b).
Lemma apartb_apart a n b k : apartb a n b k = true -> apart a n b k.
Proof. unfold apartb, apart. intros E. apply orb_true_iff in E. destruct E as [E|E]; apply Z.leb_le in E; auto. Qed.
Lemma room_more (place : memory -> Z -> option Z) k st su a : (forall m, m_stack m = st -> m_static m = su -> place m 8 = Some a) -> a mod 8 = 0 ->
  forallb (fun o => apartb a 8 (fst o) (snd o)) (st ++ su) = true -> room place k ((a, 8) :: st) su -> room place (S k) st su.
Proof.
  intros A B D R. exists a. split; [exact A|]. split; [exact B|]. split; [|exact R]. intros b n HI. rewrite forallb_forall in D. specialize (D _ HI). apply apartb_apart in D. exact D.
Qed.
(** The hypotheses of [ready], computed; [place] is that of [machine]. *)
Lemma ready_check tbl k vars lit m :
  room (h_place (host_of (computer tbl))) k (m_stack m) (m_static m) ->
  forallb (fun p => nearb (load m (h_addr (host_of (computer tbl)) (fst p))) (snd p)) vars = true ->
  forallb (fun p => forallb (fun q => String.eqb (fst p) (fst q) || apartb (h_addr (host_of (computer tbl)) (fst p)) 8 (h_addr (host_of (computer tbl)) (fst q)) 8) vars) vars = true ->
  NoDup (map fst vars) -> forallb (fun i => accessible m (h_lit (host_of (computer tbl)) 0 + Z.of_nat i) 1) (seq 0 (Z.to_nat lit)) = true ->
  forallb (fun p => forallb (fun i => apartb (h_addr (host_of (computer tbl)) (fst p)) 8 (h_lit (host_of (computer tbl)) 0 + Z.of_nat i) 1) (seq 0 (Z.to_nat lit))) vars = true ->
  ready (host_of (computer tbl)) k vars lit m.
Proof.
  intros RM W A ND L LA. rewrite forallb_forall in W, A, LA. constructor.
  - exact RM.
  - intros i x v E. apply nth_error_In in E. specialize (W _ E). cbn [fst snd] in W. destruct (load m _); [|discriminate]. apply Z.eqb_eq in W. congruence.
  - intros i j x v y u E1 E2 N. specialize (A _ (nth_error_In _ _ E1)). rewrite forallb_forall in A. specialize (A _ (nth_error_In _ _ E2)). cbn [fst snd] in A.
    destruct (String.eqb_spec x y) as [->|_]; [|exact (apartb_apart _ _ _ _ A)]. exfalso. apply N. apply (proj1 (NoDup_nth_error (map fst vars)) ND).
    + rewrite map_length. apply nth_error_Some. congruence.
    + rewrite !nth_error_map, E1, E2. reflexivity.
  - intros i B. rewrite forallb_forall in L. specialize (L (Z.to_nat i) ltac:(apply in_seq; lia)). rewrite Z2Nat.id in L by lia. exact L.
  - intros x v i HI B. specialize (LA _ HI). rewrite forallb_forall in LA. specialize (LA (Z.to_nat i) ltac:(apply in_seq; lia)). rewrite Z2Nat.id in LA by lia. exact (apartb_apart _ _ _ _ LA).
Qed.
Ltac by_room := first [exact Logic.I | eapply room_more; [let m := fresh in let E1 := fresh in let E2 := fresh in intros m E1 E2; cbn [host_of computer h_place i_place machine]; rewrite E1, E2; vm_compute; reflexivity|vm_compute; reflexivity|vm_compute; reflexivity|by_room]].
Ltac by_ready := apply ready_check; [match goal with |- room _ _ (m_stack ?m) (m_static ?m) =>
    let st := eval vm_compute in (m_stack m) in let su := eval vm_compute in (m_static m) in change (m_stack m) with st; change (m_static m) with su end; by_room
  |vm_compute; reflexivity|vm_compute; reflexivity|cbn [map fst]; repeat (apply NoDup_cons; [cbn; intuition discriminate|]); apply NoDup_nil|vm_compute; reflexivity|vm_compute; reflexivity].
(** fizzbuzz.b as it is loaded, with n = 100 *)
Definition tbl84 := ["main"; "b.printf"; "b.write"; "b.fib"; "b.n"; "b.fout"; ".str.0"].
Definition I84 := computer tbl84.
Definition mem84 := word_at (i_sym I84 "b.fout") 0 (image I84 fizz_module).
Example C84_fizzbuzz_ex : linked (host_of I84) I84 fizz_module /\ with_library pc I84 /\ low I84 /\ loaded I84 fizz_module mem84 /\
  PropsGlobal.bytes_at mem84 (h_lit (host_of I84) 0) ($"%d" ++ [NUL]) /\ ready (host_of I84) 1 [("n", 100); ("fout", 0)] 3 mem84 /\
  answers 1 5 ($"1" ++ newline ++ $"2" ++ newline ++ $"Fizz" ++ newline ++ $"4" ++ newline ++ $"Buzz" ++ newline).
Proof.
  split; [by_machine|]. split; [apply computer_library|]. split; [apply computer_low; vm_compute; reflexivity|]. split; [apply loaded_check; vm_compute; reflexivity|].
  split. { intros [|[|[|i]]] b E; try (injection E as <-; vm_compute; reflexivity). destruct i; discriminate E. }
  split; [by_ready|].
  assert (D : forall k i, 0 < k -> i mod k <> 0 -> ~ (k | i)) by (intros k i K E X; apply E; apply Z.mod_divide; auto; lia).
  assert (Y : forall k i, 0 < k -> i mod k = 0 -> (k | i)) by (intros k i K E; apply Z.mod_divide; auto; lia).
  assert (N : forall c, 49 <= code c < 58 -> numeral 10 (code c - 48) [c]).
  { intros c R. split; [discriminate|]. split; [constructor; [lia|constructor]|]. split; [cbn [positional List.length]; change (10 ^ Z.of_nat 0) with 1; lia|]. intros r E. injection E as E _. subst c. vm_compute in R. destruct R as [R _]. exfalso. apply R. reflexivity. }
  apply (an_cons 1 4 ($"1")); [right; right; right; split; [apply D; [lia|discriminate]|split; [apply D; [lia|discriminate]|apply (N "1"%char); vm_compute; intuition discriminate]]|].
  apply (an_cons 2 3 ($"2")); [right; right; right; split; [apply D; [lia|discriminate]|split; [apply D; [lia|discriminate]|apply (N "2"%char); vm_compute; intuition discriminate]]|].
  apply (an_cons 3 2 ($"Fizz")); [right; left; split; [apply Y; [lia|reflexivity]|split; [apply D; [lia|discriminate]|reflexivity]]|].
  apply (an_cons 4 1 ($"4")); [right; right; right; split; [apply D; [lia|discriminate]|split; [apply D; [lia|discriminate]|apply (N "4"%char); vm_compute; intuition discriminate]]|].
  apply (an_cons 5 0 ($"Buzz") []); [right; right; left; split; [apply D; [lia|discriminate]|split; [apply Y; [lia|reflexivity]|reflexivity]]|]. constructor.
Qed.
(** fibonacci.b as it is loaded, with n = 10 *)
Definition mem84f := word_at (i_sym I84 "b.fout") 0 (image I84 fib_module).
Example C84_fibonacci_ex : linked (host_of I84) I84 fib_module /\ with_library pc I84 /\ low I84 /\ loaded I84 fib_module mem84f /\
  PropsGlobal.bytes_at mem84f (h_lit (host_of I84) 0) ($"%d" ++ newline ++ [NUL]) /\ ready (host_of I84) 5 [("n", 10); ("fout", 0)] 4 mem84f /\
  wrap64 (fibonacci (Z.to_nat 10)) = 55 /\ 55 <> - 2 ^ 63 /\ signed_numeral 10 55 ($"55").
Proof.
  split; [by_machine|]. split; [apply computer_library|]. split; [apply computer_low; vm_compute; reflexivity|]. split; [apply loaded_check; vm_compute; reflexivity|].
  split. { intros [|[|[|[|i]]]] b E; try (injection E as <-; vm_compute; reflexivity). destruct i; discriminate E. }
  split; [by_ready|]. split; [vm_compute; reflexivity|]. split; [lia|].
  vm_compute. split; [discriminate|]. split; [repeat constructor; discriminate|]. split; [reflexivity|]. intros r E. discriminate E.
Qed.
(** e-2.b with n = 3: 1/2 + 1/6 + 1/24 = 17/24 = .708333... *)
Definition tbl84e := ["main"; "b.write"; "b.n"; "b.v"; "b.fout"].
Definition I84e := computer tbl84e.
Definition mem84e := fold_right (fun x m => word_at (fst x) (snd x) m) empty_mem
  [(i_sym I84e "b.fout", 0); (i_sym I84e "b.n", 3); (i_sym I84e "b.v", i_sym I84e "b.v" + 8); (i_sym I84e "b.v" + 8, 0); (i_sym I84e "b.v" + 16, 0); (i_sym I84e "b.v" + 24, 0)].
Example C84_digits_ex : let p := i_sym I84e "b.v" + 8 in linked (host_of I84e) I84e e2_module /\ with_library pc I84e /\
  ready (host_of I84e) 4 [("n", 3); ("v", p); ("fout", 0)] 0 mem84e /\ 0 <= p /\ p + 8 * 3 <= 2 ^ 62 /\
  (forall i, 0 <= i < 3 -> load mem84e (p + 8 * i) <> None /\ forall x, In x ["n"; "v"; "fout"] -> apart (h_addr (host_of I84e) x) 8 (p + 8 * i) 8) /\
  10 ^ 6 * series 3 / factorial 4 = 708333 /\ grouped 0 ($"708333") = $"70833 3".
Proof.
  cbv zeta. split; [by_machine|]. split; [apply computer_library|]. split; [by_ready|]. split; [vm_compute; discriminate|]. split; [vm_compute; discriminate|].
  split. { intros i L. assert (i = 0 \/ i = 1 \/ i = 2) as [->|[->| ->]] by lia; (split; [vm_compute; discriminate|]); intros x [<-|[<-|[<-|[]]]]; apply apartb_apart; vm_compute; reflexivity. }
  split; vm_compute; reflexivity.
Qed.
Definition M84h := module_for hello_pshort.
Definition mem84h := word_at (i_sym I84 "b.fout") 0 (image I84 M84h).
Example C84_hello_ex : linked (host_of I84) I84 M84h /\ with_library pc I84 /\ low I84 /\ loaded I84 M84h mem84h /\ load mem84h (i_sym I84 "b.fout") = Some 0.
Proof.
  split; [by_machine|]. split; [apply computer_library|]. split; [apply computer_low; vm_compute; reflexivity|]. split; [apply loaded_check; vm_compute; reflexivity|vm_compute; reflexivity].
Qed.
