(** * PropsStages: programs made by several commands (C83) *)
From Coq Require Import List Ascii String ZArith NArith Lia Bool.
From Verif Require Import Base Lexer SpecLex IR Builder Decl Syntax SpecTree SpecStatic SpecText SpecAccept TextTac Driver SpecDriver Cmdline PropsDriver DriverLink DriverStages
  SpecSem IRSem IRDet SpecLink SimFun SemEx PropsExpr RunFacts Runtime Process PropsProc PropsEnd PropsGlobal Built InvSym Strings Ld SpecLd LdFacts LdSrc PropsLd PropsAccept Files SpecFiles SimFiles PropsFiles SpecTool PropsTool SpecStages.
Import ListNotations.
Open Scope string_scope.
Open Scope list_scope.
Open Scope Z_scope.
Local Notation "$ s" := (list_ascii_of_string s%string) (at level 1, format "$ s").

Lemma blang_runs csv E argv s st s' fl m : command_line csv argv = Some fl -> compiling fl -> mode_is fl m ->
  blang csv E argv s = (st, s') -> PropsDriver.run E fl m s st s'.
Proof. intros CL C M B. unfold blang in B. rewrite CL in B. constructor; auto. Qed.
Lemma named_dot p st e : named p st e -> exists q, p = q ++ "."%char :: e.
Proof. intros (d & -> & _). exists (d ++ st). rewrite <- app_assoc. reflexivity. Qed.
Lemma tree_module c ds M : tree_of c ds -> compile c false = Ok M tt -> PropsExpr.module_of ds M.
Proof. intros (w & t & -> & L & T) CM. exists w, t. auto. Qed.

Definition OutputIR_dec m : {m = OutputIR} + {m <> OutputIR}.
Proof. destruct m; (left; reflexivity) || (right; discriminate). Defined.
Definition path_eq_dec : forall p q : path, {p = q} + {p <> q} := list_eq_dec ascii_dec.

(** ** C83 *)
(** The output of a command has the code of its input: the text of the module, or
    what clang makes of it. *)
Theorem C83_stage : forall E B K rep fl m s s', stages E B K rep -> PropsDriver.run E fl m s 0 s' -> m <> OutputExecutable ->
  SpecDriver.separate fl m -> clean fl m ->
  forall f o ds st, In f (f_files fl) -> carries rep (d_fs s) f ds -> is_output fl m f o -> named o st (stage m) -> carries rep (d_fs s') o ds.
Proof.
  intros E B K rep fl m s s' SG R NX SP [CP CU] f o ds st Hf (sf & e & c & HN & HC & HD) HO HNo.
  assert (HL : exists p e', named f p e' /\ In e' (SpecDriver.accepted m)).
  { destruct (C54_success_means _ _ _ _ _ R) as ((_ & _ & _ & _ & X) & _). apply X. exact Hf. }
  destruct HL as (p & e' & HN' & HE). destruct (DriverFacts.named_unique f sf e p e' HN HN') as [-> ->].
  destruct (In_nth_error _ _ Hf) as [i Hi].
  assert (SB : e' = txt "b" -> tree_of c ds).
  { intros ->. destruct HD as [[_ HD]|[HD _]]; [exact HD|]. destruct HD as [HD|[HD|[HD|[]]]]; discriminate HD. }
  assert (MK : forall M out, PropsExpr.module_of ds M -> rep (stage m) out M -> d_fs s' o = Some out -> carries rep (d_fs s') o ds).
  { intros M out H1 H2 H3. exists st, (stage m), out. split; [exact HNo|]. split; [exact H3|]. right. split; [|eauto]. destruct m; cbn; auto. }
  destruct (OutputIR_dec m) as [->|NI].
  - destruct (C57_own_output_partial _ _ _ _ _ R ltac:(discriminate) SP i f Hi) as (o1 & H1 & ir & (c1 & M & T1 & T2 & ->) & E1).
    destruct (C47_output_names_partial _ _ _ _ _ R f Hf) as (o2 & _ & U & _). rewrite (U o HO). rewrite (U o1 H1) in E1.
    rewrite <- (U o HO) in *. rewrite HC in T1. injection T1 as <-.
    apply (MK M (render E M)); auto; [|apply (sg_text _ _ _ _ SG)]. apply (tree_module c); auto. apply SB.
    destruct HE as [<-|[]]. reflexivity.
  - assert (HM : m = OutputAssembly \/ m = OutputObject) by (destruct m; auto; congruence).
    destruct (stage_command E fl m s s' R HM SP i f o Hi HO) as (t & fx & out & y & CI & CL & E1 & XB & XN).
    assert (PY : plain y) by (apply (CP i f y Hi CI)).
    assert (G : exists e2 c2 M, PropsExpr.module_of ds M /\ (exists q, y = q ++ "."%char :: e2) /\ fx y = Some c2 /\ rep e2 c2 M /\ In (flag_of m, e2, stage m) [(txt "-S", txt "ll", txt "s"); (txt "-c", txt "ll", txt "o"); (txt "-c", txt "s", txt "o")]).
    { destruct (path_eq_dec e' (txt "b")) as [EB|EB].
      - destruct XB as ([q Hq] & c1 & M & T1 & T2 & T3); [exists p; subst e'; exact HN'|]. rewrite HC in T1. injection T1 as <-.
        exists (txt "ll"), (render E M), M. split; [apply (tree_module c); auto|]. split; [exists q; exact Hq|]. split; [exact T3|].
        split; [apply (sg_text _ _ _ _ SG)|]. destruct HM; subst m; cbn; auto.
      - assert (NB : forall st0, ~ named f st0 (txt "b")).
        { intros st0 K0. destruct (DriverFacts.named_unique f _ _ _ _ K0 HN') as [_ EQ]. congruence. }
        destruct HD as [[HD _]|[HD (M & H1 & H2)]]; [congruence|].
        exists e', c, M. split; [exact H1|]. split; [|split; [|split; [exact H2|]]].
        + destruct CI as [[[st0 K0] _]|[_ ->]]; [destruct (NB st0 K0)|]. eapply named_dot; eauto.
        + rewrite XN; auto.
        + destruct HM; subst m; cbn in HE |- *; (destruct HE as [EB2|HE]; [destruct EB; rewrite <- EB2; reflexivity|]).
          * destruct HE as [<-|[]]. auto.
          * destruct HE as [<-|[<-|[]]]; auto. }
    destruct G as (e2 & c2 & M & G1 & G2 & G3 & G4 & G5).
    apply (MK M out); auto. apply (sg_step _ _ _ _ SG (flag_of m) e2 (stage m) G5 t (lead fl) o y fx out M c2); auto. apply lead_options.
Qed.
Print Assumptions C83_stage.

(** Files a command does not write keep their code. *)
Theorem C83_kept : forall E rep fl m s st s' p ds, PropsDriver.run E fl m s st s' -> unwritten fl m p ->
  carries rep (d_fs s) p ds -> carries rep (d_fs s') p ds.
Proof.
  intros E rep fl m s st s' p ds R [U1 U2] (sf & e & c & HN & HC & HD). destruct (C56_other_files_kept _ _ _ _ _ _ p R U1 U2) as [EQ _].
  exists sf, e, c. rewrite EQ. auto.
Qed.
Print Assumptions C83_kept.

(** Any sequence of commands: the files at the end have the code of the trees they
    were made from. *)
Theorem C83_session : forall csv E B K rep s k s' k', stages E B K rep -> session csv E s k s' k' ->
  Forall (fun x => carries rep (d_fs s) (fst x) (snd x)) k -> Forall (fun x => carries rep (d_fs s') (fst x) (snd x)) k'.
Proof.
  intros csv E B K rep s k s' k' SG SE. induction SE as [s k|s k s1 k1 s2 k2 argv SE IH ST]; [auto|]. intros HK. specialize (IH HK).
  destruct ST as (fl & m & CL & CO & MO & NX & SP & CN & BL & X). pose proof (blang_runs _ _ _ _ _ _ _ _ CL CO MO BL) as R.
  rewrite Forall_forall in IH |- *. intros [p ds] Hp. cbn [fst snd]. destruct (X p ds Hp) as [[H1 H2]|(f & st & H1 & H2 & H3 & H4)].
  - apply (C83_kept E rep fl m s1 0 s2 p ds R H2). apply (IH _ H1).
  - apply (C83_stage E B K rep fl m s1 s2 SG R NX SP CN f p ds st H1); auto. apply (IH _ H2).
Qed.
Print Assumptions C83_session.

(** Linking files of any stages gives the code of the modules. *)
Theorem C83_link : forall E B K rep fl s s' trees, stages E B K rep -> linux E = true -> PropsDriver.run E fl OutputExecutable s 0 s' ->
  f_libraries fl = [] -> clean fl OutputExecutable -> names_apart fl -> Forall2 (carries rep (d_fs s)) (f_files fl) trees ->
  exists o exe fs I m, is_output fl OutputExecutable [] o /\ d_fs s' o = Some exe /\ map fst fs = trees /\
    Forall (fun f => PropsExpr.module_of (fst f) (snd f)) fs /\ executes B K exe (map snd fs) I m.
Proof.
  intros E B K rep fl s s' trees SG LX R NL [CP CU] NA HC.
  destruct (mixed_command E fl s s' R) as (o & ins & t & fx & exe & HO & HL & HI & CL & HE).
  rewrite LX, NL in CL. cbn [map app] in CL.
  assert (LT : List.length (f_files fl) = List.length trees) by (eapply Forall2_len; eauto).
  assert (G : forall i ds, nth_error trees i = Some ds -> exists M, PropsExpr.module_of ds M /\ exists y, nth_error ins i = Some y /\
     plain y /\ exists e c, In e [txt "ll"; txt "s"; txt "o"] /\ (exists q, y = q ++ "."%char :: e) /\ fx y = Some c /\ rep e c M).
  { intros i ds Hds.
    assert (exists f, nth_error (f_files fl) i = Some f) as [f Hf].
    { destruct (nth_error (f_files fl) i) eqn:Q; eauto. apply nth_error_None in Q. assert (nth_error trees i <> None) as Z by congruence. apply nth_error_Some in Z. lia. }
    assert (HCf : carries rep (d_fs s) f ds).
    { clear - HC Hf Hds. revert i Hf Hds. induction HC; intros [|i] Hf Hds; cbn in *; try discriminate; [congruence|eauto]. }
    destruct HCf as (sf & e & c & HN & HCc & HD). destruct (HI i f Hf) as (y & Hy & CI & XB & XN).
    assert (PY : plain y) by (apply (CP i f y Hf CI)).
    destruct (path_eq_dec e (txt "b")) as [EB|EB].
    - subst e. destruct HD as [[_ HD]|[HD _]]; [|destruct HD as [HD|[HD|[HD|[]]]]; discriminate HD].
      destruct XB as ([q Hq] & c1 & M & T1 & T2 & T3); [exists sf; exact HN|]. rewrite HCc in T1. injection T1 as <-.
      exists M. split; [apply (tree_module c); auto|]. exists y. split; [exact Hy|]. split; [exact PY|]. exists (txt "ll"), (render E M).
      split; [left; reflexivity|]. split; [exists q; exact Hq|]. split; [exact T3|apply (sg_text _ _ _ _ SG)].
    - assert (NB : forall st0, ~ named f st0 (txt "b")).
      { intros st0 K0. destruct (DriverFacts.named_unique f _ _ _ _ K0 HN) as [_ EQ]. congruence. }
      destruct HD as [[HD _]|[HD (M & H1 & H2)]]; [congruence|].
      exists M. split; [exact H1|]. exists y. split; [exact Hy|]. split; [exact PY|]. exists e, c. split; [exact HD|]. split; [|split; [|exact H2]].
      + destruct CI as [[[st0 K0] _]|[_ ->]]; [destruct (NB st0 K0)|]. eapply named_dot; eauto.
      + rewrite XN; auto. apply CU; [eapply nth_error_In; eauto|exact NB]. }
  destruct (pick_all (fun i ds M => PropsExpr.module_of ds M /\ exists y, nth_error ins i = Some y /\
     plain y /\ exists e c, In e [txt "ll"; txt "s"; txt "o"] /\ (exists q, y = q ++ "."%char :: e) /\ fx y = Some c /\ rep e c M) trees G) as (Ms & LM & HM).
  destruct (sg_link _ _ _ _ SG t (lead fl) ins (default_dirs E ++ f_library_dirs fl) o fx exe Ms) as (I & m & X).
  - apply lead_options.
  - apply Forall2_nth; [congruence|]. intros i y M H1 H2.
    assert (exists ds, nth_error trees i = Some ds) as [ds Hds].
    { destruct (nth_error trees i) eqn:Q; eauto. apply nth_error_None in Q. assert (nth_error Ms i <> None) as Z by congruence. apply nth_error_Some in Z. lia. }
    destruct (HM i ds M Hds H2) as (_ & y' & Hy' & Z). assert (y' = y) by congruence. subst y'. exact Z.
  - cbn [app]. exact CL.
  - exists o, exe, (combine trees Ms), I, m.
    assert (E1 : map fst (combine trees Ms) = trees) by (clear - LM; revert Ms LM; induction trees as [|d l IH]; intros [|M Ms] L; try discriminate; cbn; f_equal; auto).
    assert (E2 : map snd (combine trees Ms) = Ms) by (clear - LM; revert Ms LM; induction trees as [|d l IH]; intros [|M Ms] L; try discriminate; cbn; f_equal; auto).
    rewrite E1, E2. split; [exact HO|]. split; [|split; [reflexivity|split; [|exact X]]].
    + apply HE. intros i f Hf HT. apply (NA i f o Hf HT). exact HO.
    + apply Forall_forall. intros [ds M] Hin. apply In_nth_error in Hin. destruct Hin as [i Hi].
      assert (nth_error trees i = Some ds /\ nth_error Ms i = Some M) as [Q1 Q2].
      { clear - Hi. revert Ms i Hi. induction trees as [|d l IH]; intros [|N Ms] [|i] Hi; cbn in *; try discriminate; [injection Hi as -> ->; auto|auto]. }
      apply (HM i ds M Q1 Q2).
Qed.
Print Assumptions C83_link.

(** A program made by any sequence of commands: the process does what the reference
    semantics says of the text of all files. *)
Theorem C83_behaves_partial : forall csv E B K rep s k s1 k1 argv fl s2 trees locals, stages E B K rep -> linux E = true ->
  Forall (fun x => (exists st, named (fst x) st (txt "b")) /\ exists src, d_fs s (fst x) = Some src /\ tree_of src (snd x)) k ->
  session csv E s k s1 k1 ->
  command_line csv argv = Some fl -> compiling fl -> mode_is fl OutputExecutable -> f_libraries fl = [] ->
  clean fl OutputExecutable -> names_apart fl -> Forall2 (fun f ds => In (f, ds) k1) (f_files fl) trees -> Forall (Forall (regularD locals)) trees ->
  blang csv E argv s1 = (0, s2) ->
  exists o exe fs I m, is_output fl OutputExecutable [] o /\ d_fs s2 o = Some exe /\ map fst fs = trees /\ executes B K exe (map snd fs) I m /\
    let H := host_files I fs in
    (forall n w x, calls H locals (List.concat trees) n "main" [] m w = answer x ->
       forall code w', finishes B exe w code w' <-> code = exit_code x /\ w' = exit_os x) /\
    (forall w, endless H locals (List.concat trees) "main" [] m w -> hangs B exe w /\ forall code w', ~ finishes B exe w code w') /\
    (forall ds before d after, In ds trees -> ds = before ++ d :: after -> is_function d = false ->
       (forall d', In d' after -> is_function d' = true \/ dname d' <> dname d) -> sized d -> initial m (h_addr H (dname d)) d) /\
    (forall n t, nth_error (textsP (List.concat trees)) n = Some t -> PropsGlobal.bytes_at m (h_lit H (Z.of_nat n)) (list_ascii_of_string t ++ [NUL])).
Proof.
  intros csv E B K rep s k s1 k1 argv fl s2 trees locals SG LX HK SE CL CO MO NL CN NA HF RG BL.
  assert (HK1 : Forall (fun x => carries rep (d_fs s1) (fst x) (snd x)) k1).
  { apply (C83_session csv E B K rep s k s1 k1 SG SE). eapply Forall_impl; [|exact HK]. cbv beta. intros x ((st & N) & src & E1 & T).
    exists st, (txt "b"), src. auto. }
  pose proof (blang_runs _ _ _ _ _ _ _ _ CL CO MO BL) as R.
  destruct (C83_link E B K rep fl s1 s2 trees SG LX R NL CN NA) as (o & exe & fs & I & m & HO & HE & ET & MD & X).
  { clear - HF HK1. rewrite Forall_forall in HK1. induction HF as [|f ds l trees H HF IH]; constructor; auto. exact (HK1 _ H). }
  assert (P : program (host_files I fs) I locals fs) by (eapply executes_program; eauto; rewrite ET; auto).
  assert (TX : text_of fs = List.concat trees) by (unfold text_of; rewrite flat_map_concat_map, ET; reflexivity).
  pose proof (pr_machine _ _ _ _ P) as TG.
  exists o, exe, fs, I, m. split; [exact HO|]. split; [exact HE|]. split; [exact ET|]. split; [exact X|]. cbv zeta.
  rewrite <- TX. split; [|split; [|split]].
  - intros n w x Q code w'. pose proof (C80_process_partial _ I locals fs P n m w x Q) as PE.
    apply (ex_ends _ _ _ _ _ _ X). apply PE. auto.
  - intros w Q. apply (ex_hangs _ _ _ _ _ _ X). apply (C80_exactly_partial _ _ I locals fs P "main" [] m w); [|exact Q].
    intros n. rewrite (Q n). discriminate.
  - intros ds before d after Hds E1 F NAf SZ. rewrite <- ET in Hds. apply in_map_iff in Hds. destruct Hds as ([ds' M] & <- & Hin). apply In_nth_error in Hin. destruct Hin as [i Hi].
    exact (C80_storage_partial _ _ I fs i ds' M before d after MD TG Hi E1 F NAf SZ m (ex_low _ _ _ _ _ _ X) (ex_loaded _ _ _ _ _ _ X)).
  - intros n t Q. exact (C80_literals _ _ I fs n t MD TG Q m (ex_loaded _ _ _ _ _ _ X)).
Qed.
Print Assumptions C83_behaves_partial.

(** ** Three commands
    [blang -c a.b], [blang -S b.b] and [blang a.o b.s] with the two files of C80: the
    executable prints AB and ends with the exit code 5. Here clang copies files
    in the first two steps. *)
Definition clang83 (t : nat) (args : list path) (fx : fsys) : clang_result :=
  match rev args with
  | y :: o :: w :: _ => if path_eqb w (txt "-lb") then clang81 t args fx else match fx y with Some c => ClangOk c | None => ClangFail None end
  | _ => ClangFail None
  end.
Definition env83 : Driver.env := mkEnv (fun _ => false) (fun _ => false) (fun _ => None) (fun _ => false) (fun _ => None) (fun _ => false) (fun _ => false)
  clang83 render81 true (fun p => path_eqb p ($"/usr/lib")) None.
Definition rep83 (e : path) (c : list ascii) (M : module_) : Prop := c = render81 M.
Lemma stages83 : stages env83 B81 pc rep83.
Proof.
  constructor.
  - reflexivity.
  - intros flag e e' _ t opts o y fx out M c _ _ _ F R CL. cbn [clang env83] in CL. unfold clang83 in CL.
    rewrite rev_app_distr in CL. cbn [rev app] in CL. change (path_eqb (txt "-o") (txt "-lb")) with false in CL. cbn iota in CL. rewrite F in CL. injection CL as <-. exact R.
  - intros t opts ins dirs o fx exe Ms HO HI CL. cbn [clang env83] in CL. unfold clang83 in CL.
    assert (Q : exists r, rev (opts ++ ins ++ [txt "-static"; txt "-nostdlib"] ++ map (fun d => txt "-L" ++ d) dirs ++ [txt "-lb"; txt "-o"; o]) = o :: txt "-o" :: txt "-lb" :: r).
    { eexists. rewrite !rev_app_distr. reflexivity. }
    destruct Q as [r Q]. rewrite Q in CL. change (path_eqb (txt "-lb") (txt "-lb")) with true in CL. cbn iota in CL.
    destruct (link81 t opts ins dirs o fx exe Ms HO) as [-> ->]; [| |exact CL|exists I80, mem80; exact executes81].
    + clear - HI. induction HI as [|y M ins Ms [H _] HI IH]; constructor; auto.
    + clear - HI. induction HI as [|y M ins Ms (_ & e & c & _ & _ & F & R) HI IH]; constructor; auto. rewrite F. f_equal. exact R.
Qed.
Lemma short_named x e : x <> "/"%char -> ~ In "/"%char e -> ~ In "."%char e -> named (x :: "."%char :: e) [x] e.
Proof. intros N1 N2 N3. exists []. split; [reflexivity|]. split; [left; reflexivity|]. split; [intros [K|[]]; congruence|]. auto. Qed.
Lemma short_only x e st e' : x <> "/"%char -> ~ In "/"%char e -> ~ In "."%char e -> named (x :: "."%char :: e) st e' -> st = [x] /\ e' = e.
Proof. intros N1 N2 N3 H. destruct (DriverFacts.named_unique _ _ _ _ _ (short_named x e N1 N2 N3) H) as [-> ->]. auto. Qed.
Definition flags83 c S files := mkFlags [] false false false c S false ($"0") false [] [] files false.
Lemma output83 c S files m f o x e : is_output (flags83 c S files) m f o -> (match m with OutputExecutable => hd [] files | _ => f end) = x :: "."%char :: e ->
  x <> "/"%char -> ~ In "/"%char e -> ~ In "."%char e -> o = x :: suffix m.
Proof.
  intros [[N _]|(_ & st & e' & HN & ->)] HF N1 N2 N3; [destruct (N eq_refl)|]. 
  assert (HN2 : named (x :: "."%char :: e) st e') by (rewrite <- HF; exact HN).
  destruct (short_only x e st e' N1 N2 N3 HN2) as [-> _]. reflexivity.
Qed.
Ltac short := first [discriminate | cbn; intuition discriminate].
(** What is known of the files before and after each command. *)
Definition k83a := [($"a.b", tree80a); ($"b.b", tree80b)].
Definition k83b := [($"a.o", tree80a); ($"b.b", tree80b)].
Definition k83c := [($"a.o", tree80a); ($"b.s", tree80b)].
Lemma one83 c S m x : (m = OutputAssembly \/ m = OutputObject) -> mode_is (flags83 c S [[x; "."%char; "b"%char]]) m -> x <> "/"%char -> x <> "-"%char ->
  let fl := flags83 c S [[x; "."%char; "b"%char]] in SpecDriver.separate fl m /\ clean fl m /\
  (forall p, unwritten fl m p <-> p <> x :: suffix m /\ p <> (x :: suffix m) ++ txt ".tmp.ll") /\ is_output fl m [x; "."%char; "b"%char] (x :: suffix m).
Proof.
  intros HM MO NX ND fl.
  assert (NM : named [x; "."%char; "b"%char] [x] (txt "b")) by (apply short_named; auto; short).
  assert (OU : forall f o, In f (f_files fl) -> is_output fl m f o <-> o = x :: suffix m).
  { intros f o [<-|[]]. split.
    - intros H. apply (output83 c S _ m _ o x (txt "b") H); [destruct HM; subst m; reflexivity|exact NX|short|short].
    - intros ->. right. split; [reflexivity|]. exists [x], (txt "b"). split; [|reflexivity]. destruct HM; subst m; exact NM. }
  assert (TE : forall i f p, nth_error (f_files fl) i = Some f -> is_temp fl m i f p <-> p = (x :: suffix m) ++ txt ".tmp.ll").
  { intros [|[|i]] f p Hi; try discriminate. injection Hi as <-. split.
    - intros (st & HN & HT). destruct HM; subst m; destruct HT as (o & HO & ->); apply (OU _ o (or_introl eq_refl)) in HO; rewrite HO; reflexivity.
    - intros ->. exists [x]. split; [exact NM|]. destruct HM; subst m; (eexists; split; [apply (OU _ _ (or_introl eq_refl)); reflexivity|reflexivity]). }
  split; [|split; [split|split]].
  - right. intros [|[|i]] [|[|j]] f g o Hi Hj; try discriminate; auto.
  - intros i f y Hi [[_ HT]|[N _]].
    + apply (TE i f y Hi) in HT. subst y. intros r K. injection K as K _. auto.
    + destruct i as [|[|i]]; try discriminate. injection Hi as <-. destruct (N [x] NM).
  - intros f [<-|[]] N. destruct (N [x] NM).
  - intros p. split.
    + intros [U1 U2]. split; intros ->; [apply (U1 _ (or_introl eq_refl)), (OU _ _ (or_introl eq_refl)); reflexivity|apply (U2 0%nat _ eq_refl), (TE 0%nat _ _ eq_refl); reflexivity].
    + intros [N1 N2]. split; [intros f Hf HO; apply (OU f p Hf) in HO; auto|intros i f Hi HT; apply (TE i f p Hi) in HT; auto].
  - apply OU; [left|]; reflexivity.
Qed.
Definition s83b := snd (blang (fun _ => None) env83 [$"-c"; $"a.b"] s81).
Definition s83c := snd (blang (fun _ => None) env83 [$"-S"; $"b.b"] s83b).
Definition s83d := snd (blang (fun _ => None) env83 [$"a.o"; $"b.s"] s83c).
Lemma session83 : session (fun _ => None) env83 s81 k83a s83c k83c.
Proof.
  apply session_step with s83b k83b [$"-S"; $"b.b"]; [apply session_step with s81 k83a [$"-c"; $"a.b"]; [apply session_start|]|].
  - exists (flags83 true false [$"a.b"]), OutputObject.
    destruct (one83 true false OutputObject "a"%char) as (A1 & A2 & A3 & A4); [auto|split; reflexivity|discriminate|discriminate|].
    split; [vm_compute; reflexivity|]. split; [split; reflexivity|]. split; [split; reflexivity|]. split; [discriminate|]. split; [exact A1|]. split; [exact A2|].
    split. { unfold s83b. rewrite (surjective_pairing (blang _ _ _ s81)) at 1. apply f_equal2; [vm_compute; reflexivity|reflexivity]. }
    intros p ds [K|[K|[]]]; injection K as <- <-.
    + right. exists ($"a.b"), ($"a"). split; [left; reflexivity|]. split; [left; reflexivity|]. split; [exact A4|]. apply short_named; short.
    + left. split; [right; left; reflexivity|]. apply A3. split; discriminate.
  - exists (flags83 false true [$"b.b"]), OutputAssembly.
    destruct (one83 false true OutputAssembly "b"%char) as (A1 & A2 & A3 & A4); [auto|reflexivity|discriminate|discriminate|].
    split; [vm_compute; reflexivity|]. split; [split; reflexivity|]. split; [reflexivity|]. split; [discriminate|]. split; [exact A1|]. split; [exact A2|].
    split. { unfold s83c. rewrite (surjective_pairing (blang _ _ _ s83b)) at 1. apply f_equal2; [vm_compute; reflexivity|reflexivity]. }
    intros p ds [K|[K|[]]]; injection K as <- <-.
    + left. split; [left; reflexivity|]. apply A3. split; discriminate.
    + right. exists ($"b.b"), ($"b"). split; [left; reflexivity|]. split; [right; left; reflexivity|]. split; [exact A4|]. apply short_named; short.
Qed.
Example C83_ex : exists fl, session (fun _ => None) env83 s81 k83a s83c k83c /\
  Forall (fun x => (exists st, named (fst x) st (txt "b")) /\ exists src, d_fs s81 (fst x) = Some src /\ tree_of src (snd x)) k83a /\
  command_line (fun _ => None) [$"a.o"; $"b.s"] = Some fl /\ compiling fl /\ mode_is fl OutputExecutable /\ f_libraries fl = [] /\
  clean fl OutputExecutable /\ names_apart fl /\ Forall2 (fun f ds => In (f, ds) k83c) (f_files fl) [tree80a; tree80b] /\
  Forall (Forall (regularD true)) [tree80a; tree80b] /\
  blang (fun _ => None) env83 [$"a.o"; $"b.s"] s83c = (0, s83d) /\ d_fs s83d ($"a") = Some ($"exe") /\
  forall code o', finishes B81 ($"exe") idle code o' <-> code = 5 /\ o' = mkOs [] [(1, $"A"); (1, $"B")].
Proof.
  exists (flags83 false false [$"a.o"; $"b.s"]). split; [exact session83|]. split.
  { apply Forall_cons; [|apply Forall_cons; [|apply Forall_nil]]; cbn [fst snd]; (split; [eexists; apply short_named; short|]).
    - exists src80a. split; [reflexivity|]. exists [], src80a. split; [reflexivity|]. split; [apply lay_nil|text].
    - exists src80b. split; [reflexivity|]. exists [], src80b. split; [reflexivity|]. split; [apply lay_nil|text]. }
  split; [vm_compute; reflexivity|]. split; [split; reflexivity|]. split; [repeat split; reflexivity|]. split; [reflexivity|].
  assert (NT : forall i f t, nth_error [$"a.o"; $"b.s"] i = Some f -> ~ is_temp (flags83 false false [$"a.o"; $"b.s"]) OutputExecutable i f t).
  { intros [|[|[|i]]] f t Hi (st & HN & _); try discriminate; injection Hi as <-; apply short_only in HN; try short; destruct HN; discriminate. }
  split.
  { split.
    - intros i f y Hi [[_ HT]|[_ ->]]; [destruct (NT i f y Hi HT)|]. destruct i as [|[|[|i]]]; try discriminate; injection Hi as <-; intros r; discriminate.
    - intros f Hf _. split; [|intros i g Hi; apply NT; exact Hi]. intros g _ HO.
      assert (f = $"a"). { eapply output83 in HO; [exact HO|reflexivity|short..]. }
      subst f. destruct Hf as [K|[K|[]]]; discriminate. }
  split; [intros i f t Hi HT; destruct (NT i f t Hi HT)|].
  split; [apply Forall2_cons; [left; reflexivity|]; apply Forall2_cons; [right; left; reflexivity|]; apply Forall2_nil|].
  split; [exact regular81|].
  split. { unfold s83d. rewrite (surjective_pairing (blang _ _ _ s83c)) at 1. apply f_equal2; [vm_compute; reflexivity|reflexivity]. }
  split; [vm_compute; reflexivity|].
  destruct C81_ex as (? & ? & _ & _ & _ & _ & _ & _ & _ & _ & _ & X). exact X.
Qed.
