(** * PropsTool: from the command line to the running program (C81) *)
From Coq Require Import List Ascii String ZArith NArith Lia Bool.
From Verif Require Import Base Lexer SpecLex IR Builder Decl Syntax SpecTree SpecStatic SpecText SpecAccept TextTac Driver SpecDriver Cmdline PropsDriver DriverLink
  SpecSem IRSem IRDet SpecLink SimFun SemEx PropsExpr RunFacts Runtime Process PropsProc PropsEnd PropsGlobal Built InvSym Strings Ld SpecLd LdFacts LdSrc PropsLd PropsAccept Files SpecFiles SimFiles PropsFiles SpecTool.
Import ListNotations.
Open Scope string_scope.
Open Scope list_scope.
Open Scope Z_scope.
Local Notation "$ s" := (list_ascii_of_string s%string) (at level 1, format "$ s").

(** The files [fs] of the command line with trees of their texts. *)
Definition sources (s : dstate) (fs : list path) (trees : list (list decl)) : Prop :=
  Forall2 (fun f ds => (exists st, named f st (txt "b")) /\ exists src, d_fs s f = Some src /\ tree_of src ds) fs trees.
(** No temporary file has the name of the executable or looks like an option. *)
Definition names_apart (fl : flags) : Prop := forall i f t, nth_error (f_files fl) i = Some f -> is_temp fl OutputExecutable i f t ->
  plain t /\ ~ is_output fl OutputExecutable [] t.

Lemma Forall2_len {A B} (R : A -> B -> Prop) l k : Forall2 R l k -> List.length l = List.length k.
Proof. induction 1; cbn; congruence. Qed.
Lemma lead_options fl : Forall (fun w => ~ plain w) (lead fl).
Proof.
  unfold lead. apply Forall_app. split.
  - destruct (path_eqb _ _); constructor; [|constructor]. intros K. eapply K. reflexivity.
  - destruct (f_debug fl); constructor; [|constructor]. intros K. eapply K. reflexivity.
Qed.
Lemma blang_run csv E argv s st s' fl : command_line csv argv = Some fl -> compiling fl -> mode_is fl OutputExecutable ->
  blang csv E argv s = (st, s') -> PropsDriver.run E fl OutputExecutable s st s'.
Proof. intros CL C M B. unfold blang in B. rewrite CL in B. constructor; auto. Qed.

(** ** C81 *)
(** blang ends with status 0: then the executable is there, and it is the code of
    the modules made of the files, each compiled by itself. *)
Theorem C81_executable : forall csv E B K argv fl s s' trees, toolchain E B K -> linux E = true ->
  command_line csv argv = Some fl -> compiling fl -> mode_is fl OutputExecutable -> f_libraries fl = [] ->
  sources s (f_files fl) trees -> names_apart fl ->
  blang csv E argv s = (0, s') ->
  exists o exe fs I m, is_output fl OutputExecutable [] o /\ d_fs s' o = Some exe /\ map fst fs = trees /\
    Forall2 (fun f M => exists src, d_fs s f = Some src /\ compile src false = Ok M tt) (f_files fl) (map snd fs) /\
    executes B K exe (map snd fs) I m.
Proof.
  intros csv E B K argv fl s s' trees TC LX CL CO MO NL SR NA BL. pose proof (blang_run _ _ _ _ _ _ _ CL CO MO BL) as R.
  destruct (link_command E fl s s' R) as (o & ins & t & fx & exe & Ms & HO & HM & HL & HI & HX & HC & HE).
  { intros f Hf. unfold sources in SR. clear - SR Hf. induction SR as [|g ds fs trees H SR IH]; [destruct Hf|]. destruct Hf as [<-|Hf]; [apply H|auto]. }
  rewrite LX, NL in HC. cbn [map app] in HC.
  destruct (TC t (lead fl) ins (default_dirs E ++ f_library_dirs fl) o fx exe Ms) as (I & m & X).
  - apply lead_options.
  - apply Forall_forall. intros y Hy. apply In_nth_error in Hy. destruct Hy as [i Hi].
    assert (exists f, nth_error (f_files fl) i = Some f) as [f Hf].
    { destruct (nth_error (f_files fl) i) eqn:Q; eauto. apply nth_error_None in Q. assert (nth_error ins i <> None) as Z by congruence. apply nth_error_Some in Z. lia. }
    destruct (HI i f Hf) as (y' & Hy' & HT & Hq). assert (y' = y) by congruence. subst y'. split; [|exact Hq]. apply (NA i f y Hf HT).
  - exact HX.
  - cbn [app]. exact HC.
  - exists o, exe, (combine trees Ms), I, m.
    assert (LL : List.length trees = List.length Ms).
    { apply Forall2_len in SR. apply Forall2_len in HM. congruence. }
    assert (E1 : map fst (combine trees Ms) = trees) by (clear - LL; revert Ms LL; induction trees as [|d l IH]; intros [|M Ms] L; try discriminate; cbn; f_equal; auto).
    assert (E2 : map snd (combine trees Ms) = Ms) by (clear - LL; revert Ms LL; induction trees as [|d l IH]; intros [|M Ms] L; try discriminate; cbn; f_equal; auto).
    rewrite E1, E2. split; [exact HO|]. split; [|auto]. apply HE. intros i f Hf HT. apply (NA i f o Hf HT). exact HO.
Qed.
Print Assumptions C81_executable.

Lemma executes_program (B : behaviour) (K : platform) exe (fs : files) I m locals : executes B K exe (map snd fs) I m ->
  Forall (fun f => PropsExpr.module_of (fst f) (snd f)) fs -> Forall (Forall (regularD locals)) (map fst fs) ->
  program (host_files I fs) I locals fs.
Proof.
  intros X MO RG. constructor.
  - exact MO.
  - pose proof (ex_symbols _ _ _ _ _ _ X) as S. rewrite Forall_map in S. eapply Forall_impl; [|exact S]. cbv beta. intros f ND y G F.
    apply NoDup_app_iff in ND. destruct ND as (_ & _ & ND). exact (ND y G F).
  - rewrite Forall_map in RG. exact RG.
  - destruct (ex_linked _ _ _ _ _ _ X) as (objs & all & OB & LK & _). apply (C80_linked_once fs objs libb all MO); auto.
    clear - OB. remember (map snd fs) as Ms. revert fs HeqMs. induction OB as [|M o Ms objs H OB IH]; intros [|f fs] E; try discriminate; constructor.
    + injection E as -> ->. exact H.
    + apply IH. injection E as -> ->. reflexivity.
  - apply C80_machines. intros f x Hf E. exact (ex_found _ _ _ _ _ _ X f x Hf E).
Qed.
(** The process does what the reference semantics says of the text of all files:
    output, exit code, or that it never ends. At the start the variables hold
    their initial values and the literals their characters. *)
Theorem C81_behaves_partial : forall csv E B K argv fl s s' trees locals, toolchain E B K -> linux E = true ->
  command_line csv argv = Some fl -> compiling fl -> mode_is fl OutputExecutable -> f_libraries fl = [] ->
  sources s (f_files fl) trees -> names_apart fl -> Forall (Forall (regularD locals)) trees ->
  blang csv E argv s = (0, s') ->
  exists o exe fs I m, is_output fl OutputExecutable [] o /\ d_fs s' o = Some exe /\ map fst fs = trees /\ executes B K exe (map snd fs) I m /\
    let H := host_files I fs in
    (forall n w x, calls H locals (List.concat trees) n "main" [] m w = answer x ->
       forall code w', finishes B exe w code w' <-> code = exit_code x /\ w' = exit_os x) /\
    (forall w, endless H locals (List.concat trees) "main" [] m w -> hangs B exe w /\ forall code w', ~ finishes B exe w code w') /\
    (forall ds before d after, In ds trees -> ds = before ++ d :: after -> is_function d = false ->
       (forall d', In d' after -> is_function d' = true \/ dname d' <> dname d) -> sized d -> initial m (h_addr H (dname d)) d) /\
    (forall k t, nth_error (textsP (List.concat trees)) k = Some t -> bytes_at m (h_lit H (Z.of_nat k)) (list_ascii_of_string t ++ [NUL])).
Proof.
  intros csv E B K argv fl s s' trees locals TC LX CL CO MO NL SR NA RG BL.
  destruct (C81_executable csv E B K argv fl s s' trees TC LX CL CO MO NL SR NA BL) as (o & exe & fs & I & m & HO & HE & ET & HM & X).
  assert (MD : Forall (fun f => PropsExpr.module_of (fst f) (snd f)) fs).
  { unfold sources in SR. clear - SR HM ET. subst trees. revert SR HM. generalize (f_files fl) as l. induction fs as [|f fs IH]; intros [|g l] SR HM; constructor; inversion SR; subst; inversion HM; subst.
    - destruct H2 as (_ & src & E1 & w & t & -> & L & T). destruct H3 as (src & E2 & CM). rewrite E1 in E2. injection E2 as <-. exists w, t. auto.
    - eapply IH; eauto. }
  assert (P : program (host_files I fs) I locals fs) by (eapply executes_program; eauto; rewrite ET; auto).
  assert (TX : text_of fs = List.concat trees) by (unfold text_of; rewrite flat_map_concat_map, ET; reflexivity).
  pose proof (pr_machine _ _ _ _ P) as TG.
  exists o, exe, fs, I, m. split; [exact HO|]. split; [exact HE|]. split; [exact ET|]. split; [exact X|]. cbv zeta.
  rewrite <- TX. split; [|split; [|split]].
  - intros n w x Q code w'. pose proof (C80_process_partial _ I locals fs P n m w x Q) as PE.
    apply (ex_ends _ _ _ _ _ _ X). apply PE. auto.
  - intros w Q. apply (ex_hangs _ _ _ _ _ _ X). apply (C80_exactly_partial _ _ I locals fs P "main" [] m w); [|exact Q].
    intros n. rewrite (Q n). discriminate.
  - intros ds before d after Hds E1 F NAf SZ. rewrite <- ET in Hds. apply in_map_iff in Hds. destruct Hds as ([ds' M] & <- & Hin). apply In_nth_error in Hin. destruct Hin as [i Hi].
    exact (C80_storage_partial _ _ I fs i ds' M before d after MD TG Hi E1 F NAf SZ m (ex_low _ _ _ _ _ _ X) (ex_loaded _ _ _ _ _ _ X)).
  - intros k t Q. exact (C80_literals _ _ I fs k t MD TG Q m (ex_loaded _ _ _ _ _ _ X)).
Qed.
Print Assumptions C81_behaves_partial.

(** ** A run of blang
    [blang a.b b.b] with the two files of C80 makes the executable [a], which prints
    AB and ends with the exit code 5. *)
Definition module_eq_dec : forall M N : module_, {M = N} + {M <> N}.
Proof.
  pose proof string_dec as SD. pose proof Z.eq_dec as ZD. pose proof Nat.eq_dec as ND. pose proof Bool.bool_dec as BD. pose proof ascii_dec as AD.
  assert (BO : forall a b : binop, {a = b} + {a <> b}) by decide equality.
  assert (PR : forall a b : pred, {a = b} + {a <> b}) by decide equality.
  assert (VD : forall a b : value, {a = b} + {a <> b}) by decide equality.
  assert (VL : forall a b : list value, {a = b} + {a <> b}) by (apply list_eq_dec; auto).
  assert (IC : forall a b : list (value * nat), {a = b} + {a <> b}) by (apply list_eq_dec; decide equality).
  assert (CL : forall a b : list (Z * nat), {a = b} + {a <> b}) by (apply list_eq_dec; decide equality).
  assert (ID : forall a b : inst, {a = b} + {a <> b}) by decide equality.
  assert (TD : forall a b : term, {a = b} + {a <> b}) by decide equality.
  assert (OT : forall a b : option term, {a = b} + {a <> b}) by decide equality.
  assert (IL : forall a b : list inst, {a = b} + {a <> b}) by (apply list_eq_dec; auto).
  assert (BK : forall a b : block, {a = b} + {a <> b}) by decide equality.
  assert (BL : forall a b : list block, {a = b} + {a <> b}) by (apply list_eq_dec; auto).
  assert (SL : forall a b : list string, {a = b} + {a <> b}) by (apply list_eq_dec; auto).
  assert (FD : forall a b : func, {a = b} + {a <> b}) by decide equality.
  assert (CW : forall a b : cword, {a = b} + {a <> b}) by decide equality.
  assert (CS : forall a b : list cword, {a = b} + {a <> b}) by (apply list_eq_dec; auto).
  assert (AL : forall a b : list ascii, {a = b} + {a <> b}) by (apply list_eq_dec; auto).
  assert (GI : forall a b : ginit, {a = b} + {a <> b}) by decide equality.
  assert (GD : forall a b : gdef, {a = b} + {a <> b}) by decide equality.
  assert (FL : forall a b : list func, {a = b} + {a <> b}) by (apply list_eq_dec; auto).
  assert (GL : forall a b : list gdef, {a = b} + {a <> b}) by (apply list_eq_dec; auto).
  decide equality.
Defined.
(** A printer that tells the two modules from all others, a clang that links
    these two, and how the executable behaves. *)
Definition render81 (M : module_) : list ascii :=
  if module_eq_dec M (module_for src80a) then $"A" else if module_eq_dec M (module_for src80b) then $"B" else $"other".
Fixpoint inputs81 (args : list path) : list path :=
  match args with ("-"%char :: _) :: _ | [] => [] | f :: r => f :: inputs81 r end.
Fixpoint skip81 (args : list path) : list path :=
  match args with ("-"%char :: _) :: r => skip81 r | _ => args end.
Definition clang81 (t : nat) (args : list path) (fx : fsys) : clang_result :=
  match map fx (inputs81 (skip81 args)) with [Some ["A"%char]; Some ["B"%char]] => ClangOk ($"exe") | _ => ClangFail None end.
Definition env81 : Driver.env := mkEnv (fun _ => false) (fun _ => false) (fun _ => None) (fun _ => false) (fun _ => None) (fun _ => false) (fun _ => false)
  clang81 render81 true (fun p => path_eqb p ($"/usr/lib")) None.
Definition B81 : behaviour := mkBehaviour (fun _ => process_ends I80 (code_of fs80) mem80) (fun _ => runs_forever I80 (code_of fs80) "main" [] mem80).
Definition s81 : dstate := mkD (fun p => if path_eqb p ($"a.b") then Some src80a else if path_eqb p ($"b.b") then Some src80b else None) [] 0.
Lemma process_once I M m o c1 o1 c2 o2 : process_ends I M m o c1 o1 -> process_ends I M m o c2 o2 -> c2 = c1 /\ o2 = o1.
Proof.
  intros [[m1 A]|A] [[m2 B]|B]; pose proof (proj2 (proj2 (deterministic I M)) _ _ _ _ _ A _ B) as E; inversion E; auto.
Qed.
Lemma executes81 : executes B81 pc ($"exe") (map snd fs80) I80 mem80.
Proof.
  destruct C80_ex as (P & LB & LO & LD & _). constructor.
  - constructor; [|constructor; [|constructor]]; apply twice_none; vm_compute; reflexivity.
  - exists [obj_for src80a; obj_for src80b]. destruct linked80 as [all L]. exists all. split; [|split; [exact L|]].
    + constructor; [apply obj_for_of|]. constructor; [apply obj_for_of|constructor].
    + intros _ _. vm_compute. reflexivity.
  - intros f x Hf E. apply (tg_self _ _ _ (pr_machine _ _ _ _ P) f x Hf E).
  - exact LB.
  - exact LO.
  - exact LD.
  - intros o code o' PE code2 o2. split; [apply process_once; exact PE|intros [-> ->]; exact PE].
  - intros o R. split; [exact R|]. intros code o' [[m' A]|A]; apply (not_both I80 (code_of fs80) "main" [] mem80 o); auto; [exists (XRet code m' o')|exists (XExit code o')]; exact A.
Qed.
Lemma link81 : forall t opts ins dirs o fx exe Ms, Forall (fun w => ~ plain w) opts -> Forall plain ins ->
  Forall2 (fun f M => fx f = Some (render81 M)) ins Ms ->
  clang81 t (opts ++ ins ++ [txt "-static"; txt "-nostdlib"] ++ map (fun d => txt "-L" ++ d) dirs ++ [txt "-lb"; txt "-o"; o]) fx = ClangOk exe ->
  exe = $"exe" /\ Ms = map snd fs80.
Proof.
  intros t opts ins dirs o fx exe Ms HO HI HF HC. unfold clang81 in HC.
  assert (E1 : skip81 (opts ++ ins ++ [txt "-static"; txt "-nostdlib"] ++ map (fun d => txt "-L" ++ d) dirs ++ [txt "-lb"; txt "-o"; o])
    = skip81 (ins ++ [txt "-static"; txt "-nostdlib"] ++ map (fun d => txt "-L" ++ d) dirs ++ [txt "-lb"; txt "-o"; o])).
  { clear HC. induction HO as [|w opts H HO IH]; [reflexivity|]. cbn [app skip81]. destruct w as [|c w]; [destruct H; intros r; discriminate|].
    destruct (ascii_dec c "-"%char) as [->|N]; [exact IH|]. destruct H. intros r. congruence. }
  assert (E2 : forall rest, inputs81 (skip81 (ins ++ txt "-static" :: rest)) = ins \/ ins = []).
  { clear HC HF E1. intros rest. destruct HI as [|f ins H HI]; [right; reflexivity|left].
    assert (S : forall x r, plain x -> inputs81 (x :: r) = x :: inputs81 r /\ skip81 (x :: r) = x :: r).
    { intros [|c x] r Q; [split; reflexivity|]. destruct (ascii_dec c "-"%char) as [->|N]; [destruct (Q x eq_refl)|].
      destruct c as [[] [] [] [] [] [] [] []]; split; reflexivity || destruct (N eq_refl). }
    cbn [app]. rewrite (proj2 (S f _ H)), (proj1 (S f _ H)). f_equal. clear H f. induction HI as [|f ins H HI IH]; [reflexivity|].
    cbn [app]. rewrite (proj1 (S f _ H)), IH. reflexivity. }
  rewrite E1 in HC. cbn [app] in HC. destruct (E2 (txt "-nostdlib" :: map (fun d => txt "-L" ++ d) dirs ++ [txt "-lb"; txt "-o"; o])) as [E|E].
  2:{ subst ins. exfalso.
      assert (Q : forall l, skip81 (map (fun d => txt "-L" ++ d) l ++ [txt "-lb"; txt "-o"; o]) = skip81 [o]) by (induction l as [|d l IH]; [reflexivity|exact IH]).
      change (skip81 ([] ++ txt "-static" :: txt "-nostdlib" :: map (fun d => txt "-L" ++ d) dirs ++ [txt "-lb"; txt "-o"; o]))
        with (skip81 (map (fun d => txt "-L" ++ d) dirs ++ [txt "-lb"; txt "-o"; o])) in HC. rewrite Q in HC.
      assert (Q2 : inputs81 (skip81 [o]) = [] \/ inputs81 (skip81 [o]) = [o]) by (destruct o as [|[[] [] [] [] [] [] [] []] o]; cbn; auto).
      destruct Q2 as [Q2|Q2]; rewrite Q2 in HC; cbn [map] in HC; [discriminate|].
      destruct (fx o) as [[|[[] [] [] [] [] [] [] []] [|]]|]; discriminate. }
  rewrite E in HC. clear E1 E2 E.
  destruct HF as [|f M ins Ms F1 HF]; [discriminate|]. destruct HF as [|g N ins Ms F2 HF]; [cbn [map] in HC; rewrite F1 in HC; destruct (render81 M) as [|[[] [] [] [] [] [] [] []] [|]]; discriminate|].
    cbn [map] in HC. rewrite F1, F2 in HC. unfold render81 in HC.
    destruct (module_eq_dec M (module_for src80a)) as [->|]; [|destruct (module_eq_dec M (module_for src80b)); discriminate].
    destruct (module_eq_dec N (module_for src80a)); [discriminate|]. destruct (module_eq_dec N (module_for src80b)) as [->|]; [|discriminate].
    destruct HF; [|discriminate]. injection HC as <-. split; [reflexivity|]. unfold fs80. cbn [map snd]. reflexivity.
Qed.
Lemma tools81 : toolchain env81 B81 pc.
Proof.
  intros t opts ins dirs o fx exe Ms HO HI HF HC. cbn [clang env81] in HC.
  destruct (link81 t opts ins dirs o fx exe Ms) as [-> ->]; auto; [eapply Forall_impl; [|exact HI]; cbv beta; tauto|].
  exists I80, mem80. exact executes81.
Qed.
Lemma regular81 : Forall (Forall (regularD true)) [tree80a; tree80b].
Proof. destruct C80_ex as (P & _). pose proof (pr_regular _ _ _ _ P) as R. apply Forall_cons; [|apply Forall_cons; [|apply Forall_nil]].
  - exact (Forall_inv R).
  - exact (Forall_inv (Forall_inv_tail R)).
Qed.
Example C81_ex : exists fl s', command_line (fun _ => None) [$"a.b"; $"b.b"] = Some fl /\ compiling fl /\ mode_is fl OutputExecutable /\ f_libraries fl = [] /\
  sources s81 (f_files fl) [tree80a; tree80b] /\ names_apart fl /\ Forall (Forall (regularD true)) [tree80a; tree80b] /\
  blang (fun _ => None) env81 [$"a.b"; $"b.b"] s81 = (0, s') /\ d_fs s' ($"a") = Some ($"exe") /\
  forall code o', finishes B81 ($"exe") idle code o' <-> code = 5 /\ o' = mkOs [] [(1, $"A"); (1, $"B")].
Proof.
  destruct (blang (fun _ => None) env81 [$"a.b"; $"b.b"] s81) as [st s'] eqn:BL.
  exists (mkFlags [] false false false false false false ($"0") false [] [] [$"a.b"; $"b.b"] false), s'.
  split; [vm_compute; reflexivity|]. split; [split; reflexivity|]. split; [repeat split; reflexivity|]. split; [reflexivity|].
  split.
  { assert (NB : forall c, c <> "/"%char -> exists st, named [c; "."%char; "b"%char] st (txt "b")).
    { intros c N. exists [c], []. split; [reflexivity|]. split; [left; reflexivity|]. cbn. intuition congruence. }
    apply Forall2_cons; [|apply Forall2_cons; [|apply Forall2_nil]]; (split; [apply NB; discriminate|]).
    - exists src80a. split; [reflexivity|]. exists [], src80a. split; [reflexivity|]. split; [apply lay_nil|text].
    - exists src80b. split; [reflexivity|]. exists [], src80b. split; [reflexivity|]. split; [apply lay_nil|text]. }
  split.
  { assert (NO : forall t, is_output (mkFlags [] false false false false false false ($"0") false [] [] [$"a.b"; $"b.b"] false) OutputExecutable [] t -> t = $"a").
    { intros t [[N _]|(_ & st0 & e & HN & ->)]; [destruct (N eq_refl)|]. cbn [hd f_files] in HN.
      destruct (DriverFacts.named_unique ($"a.b") ($"a") ($"b") st0 e) as [<- _]; [|exact HN|reflexivity].
      exists []. split; [reflexivity|]. split; [left; reflexivity|]. cbn. intuition discriminate. }
    intros i f t Hi (st0 & HN & HT). cbn [f_files List.length Nat.eqb] in HT.
    assert (Q : st0 = $"a" \/ st0 = $"b").
    { assert (U : forall x, x <> "/"%char -> named [x; "."%char; "b"%char] st0 (txt "b") -> st0 = [x]).
      { intros x N HX. destruct (DriverFacts.named_unique _ st0 (txt "b") [x] (txt "b") HX) as [U _]; [|exact U].
        exists []. split; [reflexivity|]. split; [left; reflexivity|]. cbn. intuition congruence. }
      destruct i as [|[|i]]; [| |destruct i; discriminate]; injection Hi as <-; [left|right]; apply U; auto; discriminate. }
    split; [destruct Q as [->| ->]; subst t; intros r; discriminate|]. intros K. apply NO in K. subst t. destruct Q as [->| ->]; discriminate. }
  split; [exact regular81|].
  assert (st = 0 /\ d_fs s' ($"a") = Some ($"exe")) as [-> F].
  { change st with (fst (st, s')). change s' with (snd (st, s')) at 2. rewrite <- BL. vm_compute. auto. }
  split; [reflexivity|]. split; [exact F|].
  cbn [finishes B81]. destruct C80_ex as (P & _ & _ & _ & X).
  destruct (calls H80 true (text_of fs80) 10 "main" [] mem80 idle) as [z m' o|z o| |] eqn:CA; try contradiction. destruct X as [-> ->].
  exact (C80_process_partial H80 I80 true fs80 P 10 mem80 idle (XRet 5 m' _) CA).
Qed.
