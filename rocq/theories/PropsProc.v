(** * PropsProc: how a process ends (C46), and what programs print (C63) *)
From Coq Require Import List Ascii String ZArith NArith Lia Bool.
From Verif Require Import Base Lexer LexerFacts SpecLex IR Builder Expr Stmt Decl Wp Syntax SpecTree SpecText RenderWf TextTac PropsText PropsSym
  SpecSem IRSem IRDet SpecLink SimFun SimAny SemEx SemMono Strings PropsExpr SpecRun RunFacts PropsStmt PropsGlobal
  SpecRt Runtime RuntimeFacts PrintfFacts LoopBound Process.
Import ListNotations.
Open Scope string_scope.
Open Scope list_scope.
Open Scope Z_scope.

(** ** C46 *)
Definition exit_code (x : xres os) : Z := match x with XRet z _ _ | XExit z _ => z end.
Definition exit_os (x : xres os) : os := match x with XRet _ _ o | XExit _ o => o end.
Lemma gives_ends I M m o x : gives I M "main" [] m o x -> forall code o', process_ends I M m o code o' <-> code = exit_code x /\ o' = exit_os x.
Proof.
  intros G code o'. unfold gives in G. change (globalName "main") with "main" in G. unfold process_ends. split.
  - intros [[m' K]|K]; apply G in K; destruct x; cbn in K |- *; try discriminate K; injection K; auto.
  - intros [-> ->]. destruct x as [z m' w|z w]; cbn; [left; eexists|right]; apply G; reflexivity.
Qed.
(** The process ends with the value main completes with: the value of a return,
    0 at the end of main, or what a function that ends the process says; and it
    ends in no other way. *)
Theorem C46_status_partial : forall (H : host os) I M call locals body k m o r m1 o1 x,
  in_function H I M call locals "main" [] body k [] m o r m1 o1 ->
  completes H locals call (whole [] body k) (whole [] body k) r m1 o1 x ->
  forall code o', process_ends I M m o code o' <-> code = exit_code x /\ o' = exit_os x.
Proof. intros H I M call locals body k m o r m1 o1 x F CO. apply gives_ends. eapply completes_gives; eauto. Qed.
Print Assumptions C46_status_partial.
(** Whole programs, main and what it calls: the process ends as the reference
    semantics says, also if exit is called in a function called by main. *)
Theorem C46_program_partial : forall (H : host os) I M ds locals, module_of ds M -> linked H I M -> separate M -> Forall (regularD locals) ds ->
  forall n m o x, calls H locals ds n "main" [] m o = answer x ->
  forall code o', process_ends I M m o code o' <-> code = exit_code x /\ o' = exit_os x.
Proof.
  intros H I M ds locals MO LK SEP REG n m o x E code o'.
  pose proof (C36_programs_partial os H I M ds locals MO LK SEP REG n "main" [] m o) as F. rewrite E in F.
  change (globalName "main") with "main" in F. unfold process_ends.
  assert (G : forall r, icall I M "main" [] m o r <-> r = x) by (destruct x; exact F). split.
  - intros [[m' K]|K]; apply G in K; subst x; auto.
  - intros [-> ->]. destruct x as [z m' w|z w]; cbn; [left; exists m'|right]; apply G; reflexivity.
Qed.
Print Assumptions C46_program_partial.
(** Running off the end of main. *)
Theorem C46_end_partial : forall (H : host os) I M call locals body k m o r m1 o1 s r2 m2 o2 r3 m3 o3,
  in_function H I M call locals "main" [] body k [] m o r m1 o1 ->
  reaches H locals call (whole [] body k) (whole [] body k) r m1 o1 s r2 m2 o2 ->
  goes H locals call s r2 m2 o2 (Leaves Fall r3 m3 o3) ->
  forall code o', process_ends I M m o code o' <-> code = 0 /\ o' = o3.
Proof. intros. rewrite (gives_ends I M m o (XRet 0 m3 o3)); [reflexivity|]. eapply C32_end_partial; eauto. Qed.
Print Assumptions C46_end_partial.
(** A return in main. *)
Theorem C46_return_partial : forall (H : host os) I M call locals body k m o r m1 o1 s r2 m2 o2 z r3 m3 o3,
  in_function H I M call locals "main" [] body k [] m o r m1 o1 ->
  reaches H locals call (whole [] body k) (whole [] body k) r m1 o1 s r2 m2 o2 ->
  goes H locals call s r2 m2 o2 (Leaves (Return z) r3 m3 o3) ->
  forall code o', process_ends I M m o code o' <-> code = z /\ o' = o3.
Proof. intros. rewrite (gives_ends I M m o (XRet z m3 o3)); [reflexivity|]. eapply C32_anywhere_partial; eauto. Qed.
Print Assumptions C46_return_partial.

Lemma library_call K (H : host os) I M locals ds n x args m o : linked H I M -> with_library K I -> In x library_names -> defined 0 ds x None = None ->
  calls H locals ds (S n) x args m o =
    match library K (i_sym I "b.fout") ("b." ++ x)%string args m o with
    | Some (XRet z m' o') => Val z m' o' | Some (XExit z o') => Halt z o' | None => Stuck
    end.
Proof.
  intros LK LIB HI D. cbn [calls]. rewrite D, <- (lk_ext _ _ _ LK).
  assert (E : globalName x = ("b." ++ x)%string). { unfold globalName. destruct (String.eqb_spec x "main") as [->|]; [|reflexivity]. cbn in HI. intuition discriminate. }
  rewrite E, (LIB _ _ _ _ HI). reflexivity.
Qed.
(** A call of exit anywhere: the process ends at once with status 0. [rvalue ...
    = Halt 0 o]: from then on nothing is executed ([goes], rule [go_exit]); in
    main the process ends, in a function called by main the call ends the process. *)
Theorem C46_exit : forall K (H : host os) I M locals ds n sc r k l vs m o m1 o1, linked H I M -> with_library K I -> defined 0 ds "exit" None = None ->
  called H locals sc r "exit" = None -> rvalues H locals (calls H locals ds (S n)) sc r k l m o = Val vs m1 o1 ->
  rvalue H locals (calls H locals ds (S n)) sc r k (ECall (ECallee "exit") l) m o = Halt 0 o1.
Proof.
  intros K H I M locals ds n sc r k l vs m o m1 o1 LK LIB D CA V. rewrite rvalue_named, CA. unfold andthen. rewrite V.
  rewrite (library_call K H I M) by (auto; cbn; tauto). destruct o1. reflexivity.
Qed.
Print Assumptions C46_exit.
Theorem C46_exit_main_partial : forall (H : host os) I M call locals body k m o r m1 o1 s r2 m2 o2 o3,
  in_function H I M call locals "main" [] body k [] m o r m1 o1 ->
  reaches H locals call (whole [] body k) (whole [] body k) r m1 o1 s r2 m2 o2 ->
  goes H locals call s r2 m2 o2 (Exits 0 o3) ->
  forall code o', process_ends I M m o code o' <-> code = 0 /\ o' = o3.
Proof.
  intros H I M call locals body k m o r m1 o1 s r2 m2 o2 o3 F RE G code o'. rewrite (gives_ends I M m o (XExit 0 o3)); [reflexivity|].
  eapply completes_gives; [eassumption|]. eapply reaches_completes; [eassumption|]. eapply co_exit. eassumption.
Qed.
Print Assumptions C46_exit_main_partial.

(** ** C63 *)
(** [o'] is [o] after [out] has been written on the file [fd], in any number of
    system calls. *)
Definition printed (fd : Z) (o : os) (out : list ascii) (o' : os) : Prop :=
  o_in o' = o_in o /\ exists l, o_out o' = o_out o ++ l /\ Forall (fun p => fst p = fd) l /\ List.concat (map snd l) = out.
Lemma printed_nil fd o : printed fd o [] o.
Proof. split; auto. exists []. rewrite app_nil_r. auto. Qed.
Lemma printed_trans fd o1 a o2 b o3 : printed fd o1 a o2 -> printed fd o2 b o3 -> printed fd o1 (a ++ b) o3.
Proof.
  intros (I1 & l1 & E1 & A1 & C1) (I2 & l2 & E2 & A2 & C2). split; [congruence|]. exists (l1 ++ l2). rewrite E2, E1, app_assoc. repeat split; auto.
  - apply Forall_app. auto.
  - rewrite map_app, concat_app. congruence.
Qed.
Lemma prints_printed f m K o out w' : prints (view K f m o) out w' -> printed (f + 1) o out (os_of w').
Proof. intros (_ & _ & I & l & E & A & C). split; [exact I|]. exists l. auto. Qed.

(** A call of printf in any program prints the format with its conversions
    ([shows]) on the selected file. *)
Theorem C63_printf_partial : forall K (H : host os) I M locals ds n fmt s args out f m o, linked H I M -> with_library K I ->
  defined 0 ds "printf" None = None -> load m (i_sym I "b.fout") = Some f ->
  string_at (bytes_of K m) fmt s -> shows (bytes_of K m) s args out -> printable (PrintfFacts.plain (k_signed K)) (bytes_of K m) s args ->
  exists z o', calls H locals ds (S n) "printf" (fmt :: args) m o = Val z m o' /\ printed (f + 1) o out o'.
Proof.
  intros K H I M locals ds n fmt s args out f m o LK LIB D F SA SH PR.
  destruct (b_printf_spec (k_signed K) fmt (fun i => arg K (fmt :: args) (S i)) s args out (view K f m o)) as (n0 & w' & P & E); auto.
  { intros j x E. unfold arg. cbn [nth]. apply nth_error_nth. exact E. }
  pose proof (printf_bound _ _ _ _ _ _ (E n0 (le_n _)) (turns 64) (le_n _)) as B.
  exists (k_void K "b.printf" (fmt :: args)), (os_of w'). split; [|eapply prints_printed; eauto].
  rewrite (library_call K H I M) by (auto; cbn; tauto). unfold library. cbn [String.eqb Ascii.eqb Bool.eqb append].
  unfold printing. rewrite F. change (arg K (fmt :: args) 0) with fmt. rewrite B. reflexivity.
Qed.
Print Assumptions C63_printf_partial.

(** The same for write. *)
Theorem C63_write : forall K (H : host os) I M locals ds n x rest d f m o, linked H I M -> with_library K I ->
  defined 0 ds "write" None = None -> load m (i_sym I "b.fout") = Some f -> packed x d ->
  exists z o', calls H locals ds (S n) "write" (x :: rest) m o = Val z m o' /\ printed (f + 1) o d o'.
Proof.
  intros K H I M locals ds n x rest d f m o LK LIB D F P.
  destruct (b_write_spec x (view K f m o)) as (d' & P' & E). assert (d' = d) by (eapply packed_unique; eauto). subst d'.
  exists (k_void K "b.write" (x :: rest)), (os_of (wrote (view K f m o) d)). split; [|eapply prints_printed; apply prints_wrote].
  rewrite (library_call K H I M) by (auto; cbn; tauto). unfold library. cbn [String.eqb Ascii.eqb Bool.eqb append].
  unfold printing. rewrite F. change (arg K (x :: rest) 0) with x. rewrite E. reflexivity.
Qed.
Print Assumptions C63_write.

(** Programs [main() { ... }] that print a list of lines: [printf("...");] or
    [write('...');] in any number and order. *)
Inductive line := LPrintf (s : string) | LWrite (z : Z).
Definition line_stmt (l : line) : stmt :=
  match l with
  | LPrintf s => SExpr (ECall (ECallee "printf") (ECons (EStr s) ENil))
  | LWrite z => SExpr (ECall (ECallee "write") (ECons (EInt z) ENil))
  end.
Definition lines (l : list line) : stmts := fold_right (fun x r => SCons (line_stmt x) r) SNil l.
Definition script (l : list line) : list decl := [DFunction "main" [] (SBlock (lines l))].
(** What a line prints: printf the string with %% and unknown conversions as
    described by [shows], write the characters of the constant. *)
Definition line_out (m : Z -> ascii) (sc : bool) (l : line) (out : list ascii) : Prop :=
  match l with
  | LPrintf s => let t := list_ascii_of_string s in
      shows m t [] out /\ printable (PrintfFacts.plain sc) m t [] /\ ~ In NUL t /\ Z.of_nat (List.length t) < 2 ^ 62
  | LWrite z => packed z out
  end.
Lemma regular_script l : Forall (regularD false) (script l).
Proof.
  constructor; [|constructor]. cbn [regularD]. unfold regular. split; [constructor|]. cbn [labels onecase tidy]. repeat apply conj; [..|apply direct_any].
  - assert (E : labelsL (lines l) = []); [|rewrite E; constructor]. induction l as [|[s|z] l IH]; cbn; auto.
  - induction l as [|[s|z] l IH]; cbn; auto.
  - induction l as [|[s|z] l IH]; cbn; auto.
Qed.
Lemma literal_string K m a t : PropsGlobal.bytes_at m a (t ++ [NUL]) -> 0 <= a < 2 ^ 62 -> ~ In NUL t -> Z.of_nat (List.length t) < 2 ^ 62 -> string_at (bytes_of K m) a t.
Proof.
  intros B A N L. assert (G : forall i c, nth_error (t ++ [NUL]) i = Some c -> bytes_of K m ((a + Z.of_nat i) mod 2 ^ 64) = c).
  { intros i c E. assert (I : (i < List.length (t ++ [NUL]))%nat) by (apply nth_error_Some; congruence). rewrite app_length in I. cbn in I.
    rewrite Z.mod_small by lia. unfold bytes_of. rewrite wrap64_id by lia. rewrite (B _ _ E). apply byte_of_code. }
  clear B A L. revert a G N. induction t as [|c t IH]; intros a G N; cbn [string_at].
  - specialize (G 0%nat _ eq_refl). rewrite Z.add_0_r in G. exact G.
  - split; [intros ->; apply N; left; auto|]. split; [specialize (G 0%nat _ eq_refl); rewrite Z.add_0_r in G; exact G|].
    apply IH; [|intros K1; apply N; right; auto]. intros i c' E. specialize (G (S i) c' E). replace (a + 1 + Z.of_nat i) with (a + Z.of_nat (S i)) by lia. exact G.
Qed.

Lemma script_goes K (H : host os) I M l0 f m : linked H I M -> with_library K I -> low I -> load m (i_sym I "b.fout") = Some f ->
  forall l outs, Forall2 (line_out (bytes_of K m) (k_signed K)) l outs ->
  forall sc r k o, sc_ext sc = [] ->
  (forall i s, nth_error (textsL (lines l)) i = Some s -> PropsGlobal.bytes_at m (h_lit H (k + Z.of_nat i)) (list_ascii_of_string s ++ [NUL])) ->
  exists o', goes H false (calls H false (script l0) 1) (placeL sc k (lines l)) r m o (Leaves Fall r m o') /\ printed (f + 1) o (List.concat outs) o'.
Proof.
  intros LK LIB LO F l outs FA. induction FA as [|a d l outs LA FA IH]; intros sc r k o SC BY.
  - exists o. split; [apply go_null|apply printed_nil].
  - assert (STEP : exists z o1, rvalue H false (calls H false (script l0) 1) sc r k
        (match a with LPrintf s => ECall (ECallee "printf") (ECons (EStr s) ENil) | LWrite z => ECall (ECallee "write") (ECons (EInt z) ENil) end) m o = Val z m o1 /\ printed (f + 1) o d o1).
    { destruct a as [s|z]; cbn [line_out] in LA.
      - destruct LA as (SH & PR & NN & LE). specialize (BY 0%nat s eq_refl). rewrite Z.add_0_r in BY.
        assert (SA : string_at (bytes_of K m) (h_lit H k) (list_ascii_of_string s)).
        { apply literal_string; auto. rewrite <- (lk_lit _ _ _ LK). apply LO. }
        destruct (C63_printf_partial K H I M false (script l0) 0 _ _ [] d f m o LK LIB eq_refl F SA SH PR) as (z & o1 & E & P).
        exists z, o1. split; [|exact P]. rewrite rvalue_named. unfold called. rewrite SC. exact E.
      - destruct (C63_write K H I M false (script l0) 0 z [] d f m o LK LIB eq_refl F LA) as (v & o1 & E & P).
        exists v, o1. split; [|exact P]. rewrite rvalue_named. unfold called. rewrite SC. exact E. }
    destruct STEP as (z & o1 & E & P).
    destruct (IH sc r (k + litsS (line_stmt a)) o1 SC) as (o2 & G & P2).
    { intros i s N. destruct a as [s0|z0]; cbn [line_stmt litsS lits litsA].
      - specialize (BY (S i) s N). replace (k + (0 + (1 + 0)) + Z.of_nat i) with (k + Z.of_nat (S i)) by lia. exact BY.
      - specialize (BY i s N). replace (k + (0 + (0 + 0)) + Z.of_nat i) with (k + Z.of_nat i) by lia. exact BY. }
    exists o2. split; [|cbn [List.concat]; eapply printed_trans; eauto].
    change (lines (a :: l)) with (SCons (line_stmt a) (lines l)). cbn [placeL].
    assert (A : after sc (line_stmt a) = sc) by (destruct a; reflexivity). rewrite A.
    eapply go_seq; [|exact G]. destruct a; eapply go_expr; exact E.
Qed.
(** The process prints the outputs of the lines in order and ends with status 0. *)
Theorem C63_script : forall l outs K (H : host os) I M f m o, module_of (script l) M -> linked H I M -> separate M -> with_library K I ->
  low I -> loaded I M m -> load m (i_sym I "b.fout") = Some f -> Forall2 (line_out (bytes_of K m) (k_signed K)) l outs ->
  exists o', printed (f + 1) o (List.concat outs) o' /\ forall code o2, process_ends I M m o code o2 <-> code = 0 /\ o2 = o'.
Proof.
  intros l outs K H I M f m o MO LK SEP LIB LO LD F FA.
  assert (D : defined 0 (script l) "main" None = Some ([], SBlock (lines l), 0)) by reflexivity.
  destruct (script_goes K H I M l f m LK LIB LO F l outs FA (mkScope [] []) (fun _ => None) 0 o eq_refl) as (o' & G & P).
  { intros i s E. apply (C62_function (script l) M "main" [] (SBlock (lines l)) 0 i s) with (I := I); auto. }
  exists o'. split; [exact P|].
  apply (C46_end_partial H I M (calls H false (script l) 1) false (SBlock (lines l)) 0 m o (fun _ => None) m o
    (whole [] (SBlock (lines l)) 0) (fun _ => None) m o (fun _ => None) m o'); [|apply re_here|exact G].
  constructor; auto.
  - intros x args m' w'. apply (C36_programs_partial _ H I M (script l) false MO LK SEP (regular_script l)).
  - exists (script l). split; auto.
  - exact (Forall_inv (regular_script l)).
Qed.
Print Assumptions C63_script.

(** From the text to the output: the compiled text [main(){printf("...");}]
    prints the characters of the literal, if there is no % among them (and no
    null character), and the process ends with status 0. *)
Definition hello_text (sx : list ascii) : list ascii := $"main(){printf(" ++ sx ++ $");}".
Definition hello_module (x : string) : module_ :=
  mkModule [mkGlob ".str.0" (GBytes (list_ascii_of_string x ++ [NUL])) true]
    (m_funcs (module_for (hello_text ($"""a""")))).
Lemma hello_generate x : generate true (script [LPrintf x]) = Ok (hello_module x) tt.
Proof. vm_compute. reflexivity. Qed.
Lemma hello_funcs x : map f_name (m_funcs (hello_module x)) = ["main"; "b.printf"].
Proof. vm_compute. reflexivity. Qed.
Lemma hello_tP x sx : tStr x sx -> tP 4 (script [LPrintf x]) (hello_text sx).
Proof.
  intros T. assert (E : hello_text sx = (($"main" ++ $"()" ++ [] ++ ($"{" ++ [] ++ ((($"printf" ++ [] ++ $"(" ++ ([] ++ sx ++ [] ++ $")")) ++ [] ++ $";") ++ [] ++ $"}"))) ++ [] ++ [])).
  { unfold hello_text. cbn [app]. rewrite !app_nil_r. repeat (rewrite <- app_assoc; cbn [app]). reflexivity. }
  rewrite E. apply tP_cons; [|apply lay_nil|apply tP_nil|discriminate].
  apply tD_fun0; [t_ident|apply lay_nil|]. apply tS_block; [apply lay_nil|]. apply tL_cons; [|apply lay_nil|apply tL_nil|discriminate].
  apply tS_expr; [|t_nokey|apply lay_nil]. apply (tE_up _ 1); [|lia].
  apply tE_callx; [t_ident| |apply lay_nil]. apply tA_one; [|apply lay_nil|apply lay_nil]. apply (tE_up _ 0); [|lia]. apply tE_str. exact T.
Qed.
Lemma hello_xP x sx : tStr x sx -> SpecAccept.xP (script [LPrintf x]) (hello_text sx).
Proof. intros T. apply tP_xP, hello_tP, T. Qed.
Lemma hello_compiles x sx : tStr x sx -> compile (hello_text sx) false = Ok (hello_module x) tt.
Proof.
  intros T. pose proof (hello_tP x sx T) as P. pose proof (text_same _ _ [] (tP_xP _ _ P) lay_nil) as S. cbn [app] in S. rewrite hello_generate in S.
  destruct (compile (hello_text sx) false) as [M []|e|]; cbn in S; congruence || contradiction.
Qed.
Lemma shows_plain m t : ~ In "%"%char t -> shows m t [] t.
Proof. induction t as [|c t IH]; intros N; [constructor|]. apply sh_char; [intros ->; apply N; left; auto|]. apply IH. intros K. apply N. right. auto. Qed.
Lemma printable_plain ok m t : ~ In "%"%char t -> Forall ok t -> printable ok m t [].
Proof.
  induction t as [|c t IH]; intros N F; [exact I|]. inversion F; subst. destruct t as [|c' t]; [assumption|].
  cbn [printable]. destruct (Ascii.eqb_spec c "%") as [->|_]; [exfalso; apply N; left; auto|]. split; [assumption|]. apply IH; auto. intros K. apply N. right. auto.
Qed.
Theorem C63_hello : forall x sx, tStr x sx -> ~ In NUL (list_ascii_of_string x) -> ~ In "%"%char (list_ascii_of_string x) ->
  Z.of_nat (String.length x) < 2 ^ 62 ->
  exists M, compile (hello_text sx) false = Ok M tt /\
  forall K I f m o, i_fun I (i_sym I "main") = Some "main" -> i_fun I (i_sym I "b.printf") = Some "b.printf" -> with_library K I -> low I -> loaded I M m -> load m (i_sym I "b.fout") = Some f ->
  exists o', printed (f + 1) o (list_ascii_of_string x) o' /\ forall code o2, process_ends I M m o code o2 <-> code = 0 /\ o2 = o'.
Proof.
  intros x sx T N0 NP LE. exists (hello_module x). split; [apply hello_compiles; auto|].
  intros K I f m o E1 E2 LIB LO LD F. rewrite <- (app_nil_r (list_ascii_of_string x)). change (list_ascii_of_string x ++ []) with (List.concat [list_ascii_of_string x]).
  apply (C63_script [LPrintf x] [list_ascii_of_string x] K (host_of I) I (hello_module x) f m o); auto.
  - exists [], (hello_text sx). split; [apply lay_nil|]. split; [apply hello_xP; auto|apply hello_compiles; auto].
  - apply host_of_linked. intros g y Hg _. apply (in_map f_name) in Hg. rewrite hello_funcs in Hg. destruct Hg as [<-|[<-|[]]]; auto.
  - intros y A B. rewrite hello_funcs in B. destruct A as [<-|[]]. destruct B as [B|[B|[]]]; discriminate B.
  - constructor; [|constructor]. cbn [line_out]. cbv zeta. split; [apply shows_plain; auto|]. split.
    + apply printable_plain; auto. destruct T as [s bs T1 T2]. rewrite list_ascii_of_string_of_list_ascii. eapply Forall_impl; [|exact T2]. intros c Hc. right. exact Hc.
    + split; auto. replace (List.length (list_ascii_of_string x)) with (String.length x); auto.
      clear. induction x as [|c x IH]; cbn; congruence.
Qed.
Print Assumptions C63_hello.

(** ** Examples *)
Definition pc : platform := mkPlatform true (fun _ => NUL) (fun _ => 0) (fun _ _ => 0) (fun l => nth 2 l 0) (fun _ _ o => (0, [], o)).
Definition computer (tbl : list string) : ihost os :=
  let J := machine tbl in mkIHost os (i_place J) (i_sym J) (i_fun J) (library pc (i_sym J "b.fout")).
Lemma computer_library tbl : with_library pc (computer tbl). Proof. intros x args m o _. reflexivity. Qed.
Lemma computer_low tbl : Z.of_nat (List.length tbl) < 2 ^ 50 -> low (computer tbl). Proof. exact (low_machine tbl). Qed.
Definition idle : os := mkOs [] [].

Definition src63 := hello_text ($"""Hello, World!*n""").
Definition I63 := computer ["main"; "b.printf"; "b.fout"; ".str.0"].
Definition M63 := module_for src63.
Definition mem63 := word_at (i_sym I63 "b.fout") 0 (image I63 M63).
Example C63_ex : (exists x, tStr x ($"""Hello, World!*n""") /\ ~ In NUL (list_ascii_of_string x) /\ ~ In "%"%char (list_ascii_of_string x)) /\
  compile src63 false = Ok M63 tt /\ i_fun I63 (i_sym I63 "main") = Some "main" /\ i_fun I63 (i_sym I63 "b.printf") = Some "b.printf" /\
  with_library pc I63 /\ low I63 /\ loaded I63 M63 mem63 /\ load mem63 (i_sym I63 "b.fout") = Some 0 /\
  (* a call of printf with conversions *)
  string_at (bytes_of pc mem63) (i_sym I63 ".str.0") (list_ascii_of_string (String.append "Hello, World!" (string_of_list_ascii ["010"%char]))).
Proof.
  split. { exists (string_of_list_ascii ($"Hello, World!" ++ ["010"%char])). split.
    { assert (E : exists s, tStr (string_of_list_ascii ($"Hello, World!" ++ ["010"%char])) s /\ s = $"""Hello, World!*n"""); [eexists; split; [t_str|vm_compute; reflexivity]|].
      destruct E as (s & E & <-). exact E. }
    split; vm_compute; intuition discriminate. }
  split; [vm_compute; reflexivity|]. split; [reflexivity|]. split; [reflexivity|]. split; [apply computer_library|]. split; [apply computer_low; vm_compute; reflexivity|].
  split; [apply loaded_check; vm_compute; reflexivity|]. split; [vm_compute; reflexivity|].
  vm_compute. intuition discriminate.
Qed.
(** [main(){printf("Hi ");write('you*n');}] *)
Definition tree63 := [LPrintf "Hi "; LWrite 2037347594].
Definition src63b := $"main(){printf(""Hi "");write('you*n');}".
Definition M63b := module_for src63b.
Definition I63b := computer ["main"; "b.printf"; "b.write"; "b.fout"; ".str.0"].
Definition mem63b := word_at (i_sym I63b "b.fout") 0 (image I63b M63b).
Lemma module63b : module_of (script tree63) M63b.
Proof.
  exists [], src63b. split; [apply lay_nil|]. split; [|vm_compute; reflexivity].
  assert (E : exists s, tP 4 (script tree63) s /\ s = src63b); [|destruct E as (s & E & <-); exact (tP_xP _ _ E)]. eexists. split.
  { match goal with |- tP _ ?t _ => let u := eval vm_compute in t in change t with u end. eapply tP_cons; [|apply lay_nil|apply tP_nil|discriminate]. eapply tD_fun0; [t_ident|apply lay_nil|]. eapply tS_block; [apply lay_nil|].
    eapply tL_cons; [t_S|apply lay_nil| |discriminate]. eapply tL_cons; [|apply lay_nil|apply tL_nil|discriminate].
    eapply tS_expr; [|t_nokey|apply lay_nil]. eapply tE_up with (l := 1%nat); [|lia]. eapply tE_callx; [t_ident| |apply lay_nil].
    eapply tA_one; [|apply lay_nil|apply lay_nil]. eapply tE_up with (l := 0%nat); [|lia]. apply tE_chr.
    eapply (tChr_items _ _ ["y"; "o"; "u"; "010"]%char); [t_items|cbn; lia|split; [lia|vm_compute; reflexivity]]. }
  vm_compute. reflexivity.
Qed.
Example C63_script_ex : module_of (script tree63) M63b /\ linked (host_of I63b) I63b M63b /\ separate M63b /\ with_library pc I63b /\ low I63b /\
  loaded I63b M63b mem63b /\ load mem63b (i_sym I63b "b.fout") = Some 0 /\
  Forall2 (line_out (bytes_of pc mem63b) (k_signed pc)) tree63 [$"Hi "; $"you" ++ ["010"%char]].
Proof.
  split; [exact module63b|]. split; [by_machine|]. split; [by_names|]. split; [apply computer_library|]. split; [apply computer_low; vm_compute; reflexivity|].
  split; [apply loaded_check; vm_compute; reflexivity|]. split; [vm_compute; reflexivity|].
  constructor; [|constructor; [|constructor]].
  - cbn [line_out]. cbv zeta. split; [apply shows_plain; vm_compute; intuition discriminate|].
    split; [apply printable_plain; [vm_compute; intuition discriminate|repeat constructor; right; vm_compute; reflexivity]|]. split; vm_compute; [intuition discriminate|reflexivity].
  - cbn [line_out]. split; [discriminate|]. split; [cbn; lia|]. split; [vm_compute; reflexivity|]. intros t E. discriminate E.
Qed.
(** printf with conversions, from any point of a program. *)
Definition mem63c := word_at (i_sym I63 "b.fout") 1 (chars_at (i_sym I63 ".str.0") ($"n=%d%%" ++ [NUL]) empty_mem).
Example C63_printf_ex : linked (host_of I63) I63 M63 /\ with_library pc I63 /\ defined 0 (script [LPrintf "x"]) "printf" None = None /\
  load mem63c (i_sym I63 "b.fout") = Some 1 /\ string_at (bytes_of pc mem63c) (i_sym I63 ".str.0") ($"n=%d%%") /\
  shows (bytes_of pc mem63c) ($"n=%d%%") [-42] ($"n=-42%") /\ printable (PrintfFacts.plain (k_signed pc)) (bytes_of pc mem63c) ($"n=%d%%") [-42].
Proof.
  split; [by_machine|]. split; [apply computer_library|]. split; [reflexivity|]. split; [vm_compute; reflexivity|].
  split; [vm_compute; intuition discriminate|]. split.
  - apply sh_char; [discriminate|]. apply sh_char; [discriminate|]. apply (sh_d _ ($"%%") (-42) [] ($"-42") ($"%")); [|apply sh_pct; constructor].
    exists ($"42"). split; [reflexivity|]. split; [discriminate|]. split; [repeat constructor; vm_compute; intuition discriminate|]. split; [reflexivity|]. intros t E. discriminate E.
  - cbn. unfold PrintfFacts.plain, seven, word. repeat split; try (right; vm_compute; reflexivity); try lia.
Qed.

(** C46: [main(){if(f(1))return(7);}], [f(x){if(x)exit();return(0);}]. *)
Definition src46 := $"f(x){if(x)exit();return(0);}main(){if(f(0))return(1);if(!f(0))return(7);}g(){f(1);}".
Definition body46f := SBlock (SCons (SIf (EVar "x") (SExpr (ECall (ECallee "exit") ENil))) (SCons (SReturn (Some (EInt 0))) SNil)).
Definition body46 := SBlock (SCons (SIf (call_ "f" (EInt 0)) (SReturn (Some (EInt 1)))) (SCons (SIf (ENot (call_ "f" (EInt 0))) (SReturn (Some (EInt 7)))) SNil)).
Definition tree46 := [DFunction "f" ["x"] body46f; DFunction "main" [] body46; DFunction "g" [] (SBlock (SCons (SExpr (call_ "f" (EInt 1))) SNil))].
Definition I46 := computer ["b.f"; "main"; "b.g"; "b.exit"].
Definition M46 := module_for src46.
Definition call46 := calls (host_of I46) true tree46 10.
Lemma module46 : module_of tree46 M46.
Proof. exists [], src46. split; [apply lay_nil|split; [text|vm_compute; reflexivity]]. Qed.
Lemma linked46 : linked (host_of I46) I46 M46. Proof. by_machine. Qed.
Example C46_ex : in_function (host_of I46) I46 M46 call46 true "main" [] body46 0 [] empty_mem idle (fun _ => None) empty_mem idle /\
  (exists x, completes (host_of I46) true call46 (whole [] body46 0) (whole [] body46 0) (fun _ => None) empty_mem idle x /\ exit_code x = 7 /\ exit_os x = idle).
Proof.
  split.
  - constructor; [exact linked46|by_names| | |unfold regular; repeat apply conj; cbn; by_conj|reflexivity].
    + intros x args m w. apply (C36_programs_partial _ (host_of I46) I46 M46 tree46 true module46 linked46); [by_names|by_regular].
    + exists tree46. split; [exact module46|vm_compute; reflexivity].
  - assert (E : match run (host_of I46) true call46 5 5 (mkScope [] []) 0 body46 None (fun _ => None) empty_mem idle with Val z m' w' => z = 7 /\ w' = idle | _ => False end)
      by (vm_compute; auto).
    destruct (run _ _ _ 5 5 _ 0 body46 None _ _ _) as [z m' w'| | |] eqn:R; try contradiction. destruct E as [-> ->].
    exists (XRet 7 m' idle). split; [|split; reflexivity]. apply C29_rules. exists 5%nat. exact R.
Qed.
Example C46_program_ex : module_of tree46 M46 /\ linked (host_of I46) I46 M46 /\ separate M46 /\ Forall (regularD true) tree46 /\
  match calls (host_of I46) true tree46 10 "main" [] empty_mem idle with Val z _ o => z = 7 /\ o = idle | _ => False end.
Proof. split; [exact module46|]. split; [exact linked46|]. split; [by_names|]. split; [by_regular|]. vm_compute. auto. Qed.
Example C46_exit_ex : linked (host_of I46) I46 M46 /\ with_library pc I46 /\ defined 0 tree46 "exit" None = None /\
  called (host_of I46) true (mkScope ["x"] []) (fun _ => None) "exit" = None /\
  match calls (host_of I46) true tree46 10 "g" [] empty_mem idle with Halt z o => z = 0 /\ o = idle | _ => False end.
Proof.
  split; [exact linked46|]. split; [apply computer_library|]. split; [reflexivity|]. split; [reflexivity|]. vm_compute. auto.
Qed.
