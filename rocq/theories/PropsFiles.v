(** * PropsFiles: programs of several source files (C80) *)
From Coq Require Import List Ascii String ZArith NArith Lia Bool.
From Verif Require Import Base Lexer LexerFacts SpecLex IR Builder Expr Stmt Decl Wp Syntax SpecTree SpecStatic Pure ParseGen Pwp Built InvSym SpecText TextTac RenderWf
  SpecSem IRSem IRDet SpecLink SimFun SemEx PropsExpr RunFacts Strings Runtime Process PropsProc PropsEnd PropsGlobal Ld SpecLd LdFacts LdSrc PropsLd Files SpecFiles SimFiles.
Import ListNotations.
Open Scope string_scope.
Open Scope list_scope.
Open Scope Z_scope.
Local Notation "$ s" := (list_ascii_of_string s%string) (at level 1, format "$ s").

(** Source files, the modules made of them, and a machine that runs these. The
    files are as in C36: [regular], and in no file a name is a variable and a
    function. *)
Record program {W} (H : host W) (I : ihost W) (locals : bool) (fs : files) : Prop := {
  pr_files : Forall (fun f => PropsExpr.module_of (fst f) (snd f)) fs;
  pr_names : Forall (fun f => separate (snd f)) fs;
  pr_regular : Forall (fun f => Forall (regularD locals) (fst f)) fs;
  pr_once : once fs;
  pr_machine : together H I fs
}.
Lemma program_good {W} (H : host W) I locals fs : program H I locals fs -> goods fs.
Proof. intros P. eapply Forall_impl; [|apply (pr_files _ _ _ _ P)]. intros [ds M]. apply module_good. Qed.
Lemma program_runs {W} (H : host W) I locals fs : program H I locals fs -> forall n x args m w,
  match calls H locals (text_of fs) n x args m w with
  | Val z m' w' => icall I (code_of fs) (globalName x) args m w (XRet z m' w')
  | Halt z w' => icall I (code_of fs) (globalName x) args m w (XExit z w')
  | Stuck => True
  | Limit => busy I (code_of fs) n (globalName x) args m w
  end.
Proof. intros P. apply files_ok; [apply P|eapply program_good; eauto|apply P..]. Qed.

(** ** C80 *)
(** A program in several files, each compiled by itself, does what the reference
    semantics says of the text of all files. *)
Theorem C80_files_partial : forall W (H : host W) I locals fs, program H I locals fs ->
  forall n x args m w, follows I (code_of fs) x args m w (calls H locals (text_of fs) n x args m w).
Proof.
  intros W H I locals fs P n x args m w. apply does_follows. pose proof (program_runs H I locals fs P n x args m w) as K.
  unfold does. destruct (calls H locals (text_of fs) n x args m w); auto.
Qed.
Print Assumptions C80_files_partial.
(** It ends with a result exactly if the text says so, and runs for ever exactly
    if the text says so, if it does nothing undefined. *)
Theorem C80_exactly_partial : forall W (H : host W) I locals fs, program H I locals fs ->
  forall x args m w, (forall n, calls H locals (text_of fs) n x args m w <> Stuck) ->
  (forall r, icall I (code_of fs) (globalName x) args m w r <-> exists n, calls H locals (text_of fs) n x args m w = answer r) /\
  (runs_forever I (code_of fs) x args m w <-> endless H locals (text_of fs) x args m w).
Proof.
  intros W H I locals fs P x args m w NS.
  assert (A : forall r, icall I (code_of fs) (globalName x) args m w r <-> exists n, calls H locals (text_of fs) n x args m w = answer r).
  { intros r. split.
    - intros C. destruct (proj2 (proj2 (ends_bounded I (code_of fs))) _ _ _ _ _ C) as [k K]. exists (S k).
      pose proof (program_runs H I locals fs P (S k) x args m w) as R. pose proof (NS (S k)) as N.
      destruct (calls H locals (text_of fs) (S k) x args m w) as [z m' w'|z w'| |]; [| |contradiction|apply K in R; lia];
        rewrite (proj2 (proj2 (deterministic I (code_of fs))) _ _ _ _ _ C _ R); reflexivity.
    - intros [n E]. pose proof (program_runs H I locals fs P n x args m w) as R. rewrite E in R. destruct r; exact R. }
  split; [exact A|]. split.
  - intros B n. destruct (calls H locals (text_of fs) n x args m w) as [z m' w'|z w'| |] eqn:E; auto.
    + exfalso. apply (not_both I (code_of fs) x args m w); auto. exists (XRet z m' w'). apply A. exists n. exact E.
    + exfalso. apply (not_both I (code_of fs) x args m w); auto. exists (XExit z w'). apply A. exists n. exact E.
    + destruct (NS n E).
  - intros E n. pose proof (program_runs H I locals fs P n x args m w) as R. rewrite (E n) in R. exact R.
Qed.
Print Assumptions C80_exactly_partial.
(** The process ends as the text says. *)
Theorem C80_process_partial : forall (H : host os) I locals fs, program H I locals fs ->
  forall n m o x, calls H locals (text_of fs) n "main" [] m o = answer x ->
  forall code o', process_ends I (code_of fs) m o code o' <-> code = exit_code x /\ o' = exit_os x.
Proof.
  intros H I locals fs P n m o x E code o'. pose proof (C80_files_partial os H I locals fs P n "main" [] m o) as F. rewrite E in F.
  change (globalName "main") with "main" in F. unfold process_ends.
  assert (G : forall r, icall I (code_of fs) "main" [] m o r <-> r = x) by (destruct x; exact F). split.
  - intros [[m' K]|K]; apply G in K; subst x; auto.
  - intros [-> ->]. destruct x as [z m' w|z w]; cbn; [left; exists m'|right]; apply G; reflexivity.
Qed.
Print Assumptions C80_process_partial.
(** It makes no difference in which files the definitions are: two programs with
    the same text on machines with the same addresses do the same. *)
Theorem C80_division_partial : forall W (H : host W) I1 I2 locals fs1 fs2, program H I1 locals fs1 -> program H I2 locals fs2 -> text_of fs1 = text_of fs2 ->
  forall x args m w, (forall n, calls H locals (text_of fs1) n x args m w <> Stuck) ->
  (forall r, icall I1 (code_of fs1) (globalName x) args m w r <-> icall I2 (code_of fs2) (globalName x) args m w r) /\
  (runs_forever I1 (code_of fs1) x args m w <-> runs_forever I2 (code_of fs2) x args m w).
Proof.
  intros W H I1 I2 locals fs1 fs2 P1 P2 E x args m w NS.
  destruct (C80_exactly_partial W H I1 locals fs1 P1 x args m w NS) as [A1 B1]. rewrite E in NS.
  destruct (C80_exactly_partial W H I2 locals fs2 P2 x args m w NS) as [A2 B2]. split.
  - intros r. rewrite A1, A2, E. reflexivity.
  - rewrite B1, B2, E. reflexivity.
Qed.
Print Assumptions C80_division_partial.
(** Files that are linked define no function twice. *)
Theorem C80_linked_once : forall (fs : files) objs archive os, Forall (fun f => PropsExpr.module_of (fst f) (snd f)) fs ->
  Forall2 (fun f o => object_of (snd f) o) fs objs -> link objs archive = Linked os -> once fs.
Proof.
  intros fs objs archive os MO OB LK. assert (ND : NoDup (defs_of objs)).
  { unfold link in LK. destruct (twice _) eqn:T; [discriminate|]. clear - T.
    assert (X : exists l, extract (List.length archive) objs archive = objs ++ l).
    { clear. generalize (List.length archive) at 1 as n. intros n. revert objs archive. induction n as [|n IH]; intros objs archive; cbn [extract]; [exists []; rewrite app_nil_r; auto|].
      destruct (pick objs archive) as [[o r]|]; [|exists []; rewrite app_nil_r; auto]. destruct (IH (objs ++ [o]) r) as [l ->]. exists (o :: l). rewrite <- app_assoc. reflexivity. }
    destruct X as [l X]. rewrite X in T. unfold defs_of in T. rewrite flat_map_app in T. fold (defs_of objs) (defs_of l) in T. revert T. generalize (defs_of objs) (defs_of l). clear.
    intros a b. induction a as [|x a IH]; cbn; [constructor|]. destruct (isIn x (a ++ b)) eqn:E; [discriminate|]. intros T. constructor; auto.
    intros K. rewrite <- Bool.not_true_iff_false in E. apply E. unfold isIn. apply existsb_exists. exists x. split; [apply in_or_app; auto|apply String.eqb_refl]. }
  assert (G : forall k ds M, nth_error fs k = Some (ds, M) -> exists o, nth_error objs k = Some o /\ forall x ps b, In (DFunction x ps b) ds -> In (globalName x) (o_defs o)).
  { intros k ds M E. clear - MO OB E. revert fs MO objs OB E. induction k as [|k IH]; intros fs MO objs OB E; destruct OB as [|[d' M'] o fs objs HO OB]; try discriminate.
    - injection E as -> ->. exists o. split; auto. intros x ps b D. destruct HO as [-> _]. inversion MO; subst. cbn in *. destruct (module_of_generate _ _ H1) as [WF GEN].
      unfold module_defs. apply in_or_app. right. apply (body_defined true ds M x WF GEN). apply in_fun_names. eauto.
    - inversion MO; subst. exact (IH fs H2 objs OB E). }
  intros i j di Mi dj Mj x ps b ps' b' Ei Ej Di Dj. destruct (G _ _ _ Ei) as (oi & Oi & Ki). destruct (G _ _ _ Ej) as (oj & Oj & Kj).
  specialize (Ki _ _ _ Di). specialize (Kj _ _ _ Dj). clear - ND Oi Oj Ki Kj. unfold defs_of in ND. generalize dependent (globalName x). intros y Ki Kj. revert i j Oi Oj.
  induction objs as [|o objs IH]; intros [|i] [|j] Oi Oj; try discriminate; auto.
  - injection Oi as ->. exfalso. cbn [flat_map] in ND. apply NoDup_app_iff in ND. destruct ND as (_ & _ & ND). apply (ND y Ki). apply in_flat_map. exists oj. split; auto. eapply nth_error_In; exact Oj.
  - injection Oj as ->. exfalso. cbn [flat_map] in ND. apply NoDup_app_iff in ND. destruct ND as (_ & _ & ND). apply (ND y Kj). apply in_flat_map. exists oi. split; auto. eapply nth_error_In; exact Oi.
  - f_equal. apply IH; auto. cbn [flat_map] in ND. apply NoDup_app_iff in ND. apply ND.
Qed.
Print Assumptions C80_linked_once.

(** ** The storage of the files *)
Lemma ren_cvalue {W} (I J : ihost W) r w : (forall s, i_sym J s = i_sym I (r s)) -> cvalue I (ren_cword r w) = cvalue J w.
Proof. intros E. destruct w; unfold cvalue; cbn [ren_cword]; auto. rewrite E. reflexivity. Qed.
Lemma ren_loaded {W} (I J : ihost W) r m g : (forall s, i_sym J s = i_sym I (r s)) -> loaded_one I m (ren_glob r g) -> loaded_one J m g.
Proof.
  intros E. unfold loaded_one. cbn [ren_glob g_name g_init]. rewrite <- E. destruct (g_init g) as [w|n ws|n|bs]; cbn [ren_ginit]; auto.
  - intros ->. rewrite (ren_cvalue I J); auto.
  - intros K i w N L. rewrite (K i (ren_cword r w)); auto; [rewrite (ren_cvalue I J); auto|]. rewrite nth_error_map, N. reflexivity.
Qed.
Lemma loaded_file {W} (I : ihost W) (fs : files) m i ds M : loaded I (code_of fs) m -> nth_error fs i = Some (ds, M) -> loaded (I_of I i M) M m.
Proof.
  intros L N. apply nth_error_split in N. destruct N as (A & B & -> & <-). unfold loaded, code_of, joined in L. rewrite map_app, joined_globals in L.
  apply Forall_app in L. destruct L as [_ L]. rewrite map_length, Nat.add_0_l in L. cbn [map snd joined_from m_globals ren_module] in L.
  apply Forall_app in L. destruct L as [L _]. unfold loaded. rewrite Forall_forall in *. intros g K.
  apply (ren_loaded I _ (own (List.length A) M)); [reflexivity|]. apply L. apply in_map. exact K.
Qed.
Lemma file_linked {W} (H : host W) I fs i ds M : together H I fs -> nth_error fs i = Some (ds, M) -> good ds M -> linked (H_of H I i M) (I_of I i M) M.
Proof.
  intros TG N G. constructor; cbn [i_place h_place i_sym h_addr h_lit i_fun h_fun i_ext h_ext I_of H_of].
  - apply (tg_place _ _ _ TG).
  - intros x. rewrite own_other; [apply (tg_addr _ _ _ TG)|apply (g_hid _ _ G)|apply Static.globalName_str].
  - auto.
  - apply (tg_fun _ _ _ TG).
  - intros f x Hf E. rewrite own_other; [|apply (g_hid _ _ G)|rewrite E; apply Static.globalName_str].
    assert (K : In (f_name f) (map f_name (m_funcs (code_of fs)))).
    { apply (joined_names (f_name f) fs 0). exists (ds, M). split; [eapply nth_error_In; exact N|]. apply in_map. exact Hf. }
    apply in_map_iff in K. destruct K as (h & E1 & K). rewrite <- E1. apply (tg_self _ _ _ TG h x); congruence.
  - apply (tg_ext _ _ _ TG).
Qed.
Lemma file_good (fs : files) i ds M : Forall (fun f => PropsExpr.module_of (fst f) (snd f)) fs -> nth_error fs i = Some (ds, M) -> PropsExpr.module_of ds M /\ good ds M.
Proof. intros F N. rewrite Forall_forall in F. specialize (F _ (nth_error_In _ _ N)). split; auto. apply module_good. exact F. Qed.
(** Each variable of each file holds its initial value (see C35). *)
Theorem C80_storage_partial : forall W (H : host W) I (fs : files) i ds M before d after, Forall (fun f => PropsExpr.module_of (fst f) (snd f)) fs -> together H I fs ->
  nth_error fs i = Some (ds, M) -> ds = before ++ d :: after -> is_function d = false ->
  (forall d', In d' after -> is_function d' = true \/ dname d' <> dname d) -> sized d ->
  forall m, low I -> loaded I (code_of fs) m -> initial m (h_addr H (dname d)) d.
Proof.
  intros W H I fs i ds M before d after MO TG N E F NA SZ m LO LD. destruct (file_good fs i ds M MO N) as [MM G].
  change (h_addr H) with (h_addr (H_of H I i M)).
  apply (C35_storage_partial ds M before d after MM E F NA SZ W (H_of H I i M) (I_of I i M) m).
  - eapply file_linked; eauto.
  - intros s. apply LO.
  - eapply loaded_file; eauto.
Qed.
Print Assumptions C80_storage_partial.
(** The literals of the text, numbered through all files, have their characters. *)
Lemma literals_texts ds : Z.of_nat (List.length (textsP ds)) = literals ds.
Proof. induction ds as [|d ds IH]; [reflexivity|]. unfold textsP. cbn [flat_map literals fold_right]. fold (textsP ds) (literals ds). rewrite app_length. pose proof (litsD_texts d). lia. Qed.
Lemma text_literal (fs : files) : forall k s, nth_error (textsP (text_of fs)) k = Some s ->
  exists i ds M j, nth_error fs i = Some (ds, M) /\ nth_error (textsP ds) j = Some s /\ Z.of_nat k = literals (text_of (firstn i fs)) + Z.of_nat j.
Proof.
  induction fs as [|[ds M] fs IH]; intros k s E; [destruct k; discriminate|]. unfold text_of, textsP in E. cbn [flat_map fst] in E. rewrite flat_map_app in E.
  fold (text_of fs) (textsP ds) (textsP (text_of fs)) in E. destruct (Nat.ltb k (List.length (textsP ds))) eqn:L.
  - apply Nat.ltb_lt in L. rewrite nth_error_app1 in E by auto. exists 0%nat, ds, M, k. repeat split; auto.
  - apply Nat.ltb_ge in L. rewrite nth_error_app2 in E by auto. destruct (IH _ _ E) as (i & ds' & M' & j & E1 & E2 & E3). exists (S i), ds', M', j. split; auto. split; auto.
    cbn [firstn]. unfold text_of. cbn [flat_map fst]. fold (text_of (firstn i fs)). rewrite literals_app, <- (literals_texts ds). lia.
Qed.
Theorem C80_literals : forall W (H : host W) I (fs : files) k s, Forall (fun f => PropsExpr.module_of (fst f) (snd f)) fs -> together H I fs ->
  nth_error (textsP (text_of fs)) k = Some s ->
  forall m, loaded I (code_of fs) m -> bytes_at m (h_lit H (Z.of_nat k)) (list_ascii_of_string s ++ [NUL]).
Proof.
  intros W H I fs k s MO TG E m LD. destruct (text_literal fs k s E) as (i & ds & M & j & N & E1 & ->). destruct (file_good fs i ds M MO N) as [MM G].
  assert (B : 0 <= Z.of_nat j < literals ds).
  { assert (j < List.length (textsP ds))%nat by (apply nth_error_Some; congruence). rewrite <- (literals_texts ds). lia. }
  rewrite (tg_lit _ _ _ TG i ds M _ N B). destruct (lits_private ds M _ G B) as (g & P1 & P2 & P3). rewrite <- P3, <- (own_private i M g P1 P2), P3.
  exact (C62_literals ds M j s MM E1 W (H_of H I i M) (I_of I i M) m (file_linked H I fs i ds M TG N G) (loaded_file I fs m i ds M LD N)).
Qed.
Print Assumptions C80_literals.

(** ** Machines *)
(** The symbol of the literal number [k]; the first file is number [i]. *)
Fixpoint literal_of (i : nat) (fs : files) (k : Z) : string :=
  match fs with
  | [] => ""
  | (ds, _) :: r => if k <? literals ds then (dec (Z.of_nat i) ++ ".str." ++ dec k)%string else literal_of (S i) r (k - literals ds)
  end.
Lemma literals_pos ds : 0 <= literals ds. Proof. rewrite <- literals_texts. lia. Qed.
Lemma literal_of_nth (fs : files) : forall j i ds M k, nth_error fs i = Some (ds, M) -> 0 <= k < literals ds ->
  literal_of j fs (literals (text_of (firstn i fs)) + k) = (dec (Z.of_nat (j + i)) ++ ".str." ++ dec k)%string.
Proof.
  induction fs as [|[d' M'] fs IH]; intros j [|i] ds M k N B; try discriminate; cbn [literal_of firstn].
  - injection N as -> ->. cbn [text_of flat_map literals fold_right]. rewrite Z.add_0_l, (proj2 (Z.ltb_lt _ _)), Nat.add_0_r by lia. reflexivity.
  - unfold text_of. cbn [flat_map fst]. fold (text_of (firstn i fs)). rewrite literals_app. pose proof (literals_pos (text_of (firstn i fs))).
    rewrite (proj2 (Z.ltb_ge _ _)) by lia. replace (literals d' + literals (text_of (firstn i fs)) + k - literals d') with (literals (text_of (firstn i fs)) + k) by lia.
    rewrite (IH (S j) i ds M k N B). rewrite Nat.add_succ_comm. reflexivity.
Qed.
(** For every machine on which the functions are found at their addresses there
    is a host for the text. *)
Definition host_files {W} (I : ihost W) (fs : files) : host W :=
  mkHost W (i_place I) (fun x => i_sym I (globalName x)) (fun k => i_sym I (literal_of 0 fs k))
    (fun a => match i_fun I a with Some s => unglobal s | None => None end) (fun x => i_ext I (globalName x)).
Theorem C80_machines : forall W (I : ihost W) fs,
  (forall f x, In f (m_funcs (code_of fs)) -> f_name f = globalName x -> i_fun I (i_sym I (f_name f)) = Some (f_name f)) -> together (host_files I fs) I fs.
Proof.
  intros W I fs K. constructor; cbn [h_place h_addr h_lit h_fun h_ext host_files]; auto.
  - intros i ds M k N B. rewrite (literal_of_nth fs 0 i ds M k N B). reflexivity.
  - intros a x E. destruct (i_fun I a) as [s|]; [|discriminate]. apply unglobal_spec in E. subst. auto.
Qed.
Print Assumptions C80_machines.
Lemma found_files {W} (I : ihost W) fs : found I (code_of fs) = true -> together (host_files I fs) I fs.
Proof.
  intros K. apply C80_machines. intros f x Hf E. unfold found in K. rewrite forallb_forall in K. specialize (K f Hf).
  rewrite E, unglobal_name, <- E in K.
  destruct (i_fun I (i_sym I (f_name f))) as [s|]; [|discriminate]. apply String.eqb_eq in K. congruence.
Qed.

(** ** A program of two files
    [main(){write(char("A",0));write(char(word(),0));return(k());}] and
    [v 5;word(){return("B");}k(){extrn v;return(v);}]: it prints AB and ends with
    the exit code 5. Each file has a string constant [.str.0]. *)
Definition src80a := $"main(){write(char(""A"",0));write(char(word(),0));return(k());}".
Definition show_ (e : expr) : stmt := SExpr (ECall (ECallee "write") (ECons (ECall (ECallee "char") (ECons e (ECons (EInt 0) ENil))) ENil)).
Definition tree80a : list decl := [DFunction "main" [] (SBlock (SCons (show_ (EStr "A"))
  (SCons (show_ (ECall (ECallee "word") ENil)) (SCons (SReturn (Some (ECall (ECallee "k") ENil))) SNil))))].
Definition src80b := $"v 5;word(){return(""B"");}k(){extrn v;return(v);}".
Definition tree80b : list decl := [DGlobal "v" [IvInt 5]; DFunction "word" [] (SBlock (SCons (SReturn (Some (EStr "B"))) SNil));
  DFunction "k" [] (SBlock (SCons (SExtrn ["v"]) (SCons (SReturn (Some (EVar "v"))) SNil)))].
Definition fs80 : files := [(tree80a, module_for src80a); (tree80b, module_for src80b)].
Definition I80 := computer ["main"; "b.write"; "b.char"; "b.word"; "b.k"; "b.v"; "b.fout"; "0.str.0"; "1.str.0"].
Definition H80 := host_files I80 fs80.
Definition mem80 := word_at (i_sym I80 "b.fout") 0 (image I80 (code_of fs80)).
Lemma files80 : Forall (fun f => PropsExpr.module_of (fst f) (snd f)) fs80.
Proof.
  constructor; [exists [], src80a; split; [apply lay_nil|split; [text|vm_compute; reflexivity]]|].
  constructor; [exists [], src80b; split; [apply lay_nil|split; [text|vm_compute; reflexivity]]|constructor].
Qed.
Lemma linked80 : exists os, link [obj_for src80a; obj_for src80b] libb = Linked os.
Proof. vm_compute. eexists. reflexivity. Qed.
Lemma obj_for_of src : object_of (module_for src) (obj_for src).
Proof. split; [reflexivity|]. intros y Hy. apply in_or_app. left. exact Hy. Qed.
Example C80_ex : program H80 I80 true fs80 /\ with_library pc I80 /\ low I80 /\ loaded I80 (code_of fs80) mem80 /\
  match calls H80 true (text_of fs80) 10 "main" [] mem80 idle with Val z _ o => z = 5 /\ o = mkOs [] [(1, $"A"); (1, $"B")] | _ => False end.
Proof.
  split; [|split; [apply computer_library|split; [apply computer_low; vm_compute; reflexivity|split; [apply loaded_check; vm_compute; reflexivity|]]]].
  - constructor; [exact files80| | | |apply found_files; vm_compute; reflexivity].
    + repeat constructor; by_names.
    + repeat (apply Forall_cons || apply Forall_nil); cbn [fst fs80]; by_regular.
    + destruct linked80 as [os L]. refine (C80_linked_once fs80 _ libb os files80 _ L).
      constructor; [apply obj_for_of|]. constructor; [apply obj_for_of|constructor].
  - vm_compute. auto.
Qed.
