(** * OutNarr: the lines that -v prints *)
From Coq Require Import List Ascii String ZArith Lia Bool.
From Verif Require Import Base Lexer IR Decl Driver Cmdline SpecDriver DriverFacts DriverModes DriverSummary DriverOut SpecOut DriverOutFacts OutFacts PropsDriver.
Import ListNotations.
Open Scope Z_scope.
Open Scope v_scope.

(** [m] prints [ls] if it succeeds, with the value [a], and the beginning of it
    if it fails; with [st], not all of it. *)
Definition prints {A} (st : bool) (m : V A) (a : A) (ls : list path) : Prop := forall s,
  match m s with
  | (inl b, _, i) => b = a /\ outs i = ls
  | (inr _, _, i) => exists r, ls = outs i ++ r /\ (st = true -> r <> [])
  end.
Lemma p_weak {A} st (m : V A) a ls : prints true m a ls -> prints st m a ls.
Proof. intros H s. specialize (H s). destruct (m s) as [[[b|e] s1] i]; auto. destruct H as (r & H1 & H2). exists r. auto. Qed.
Lemma p_ret {A} st (a : A) : prints st (vret a) a [].
Proof. intros s. cbn. auto. Qed.
Lemma p_say st t : prints st (say true t) tt [says t].
Proof. intros s. cbn. auto. Qed.
Lemma p_fail {A} st e (a : A) ls : (st = true -> ls <> []) -> prints st (vfail e) a ls.
Proof. intros H s. cbn. exists ls. auto. Qed.
Lemma p_hush (m : V unit) : hush m -> prints false m tt [].
Proof. intros H s. specialize (H s). destruct (m s) as [[[[]|e] s1] i]; rewrite H; auto. exists []. split; [reflexivity|discriminate]. Qed.
Lemma p_bind {A B} (m : V A) (k : A -> V B) a b l1 l2 : prints true m a l1 -> prints true (k a) b l2 -> prints true (vbind m k) b (l1 ++ l2).
Proof.
  intros H K s. unfold vbind. specialize (H s). destruct (m s) as [[[x|e] s1] i1].
  - destruct H as (-> & H). specialize (K s1). destruct (k a s1) as [[[x|e] s2] i2].
    + destruct K as (-> & K). rewrite outs_app, H, K. auto.
    + destruct K as (r & -> & N). exists r. rewrite outs_app, H, app_assoc. auto.
  - destruct H as (r & -> & N). exists (r ++ l2). rewrite app_assoc. split; auto. intros _ Z. apply app_eq_nil in Z. destruct Z. apply N; auto.
Qed.
Lemma p_bindw {A B} st (m : V A) (k : A -> V B) a b l1 l2 : prints false m a l1 -> prints st (k a) b l2 -> (st = true -> l2 <> []) -> prints st (vbind m k) b (l1 ++ l2).
Proof.
  intros H K NE s. unfold vbind. specialize (H s). destruct (m s) as [[[x|e] s1] i1].
  - destruct H as (-> & H). specialize (K s1). destruct (k a s1) as [[[x|e] s2] i2].
    + destruct K as (-> & K). rewrite outs_app, H, K. auto.
    + destruct K as (r & -> & N). exists r. rewrite outs_app, H, app_assoc. auto.
  - destruct H as (r & -> & N). exists (r ++ l2). rewrite app_assoc. split; auto. intros Q Z. apply app_eq_nil in Z. destruct Z. apply NE; auto.
Qed.
Lemma p_hbind {A B} st (m : V A) (k : A -> V B) b ls : hush m -> (forall x, prints st (k x) b ls) -> (st = true -> ls <> []) -> prints st (vbind m k) b ls.
Proof.
  intros H K NE s. unfold vbind. specialize (H s). destruct (m s) as [[[x|e] s1] i1].
  - specialize (K x s1). destruct (k x s1) as [[[y|e] s2] i2]; rewrite outs_app, H; exact K.
  - exists ls. rewrite H. auto.
Qed.
Lemma p_on_error {A} st (m : V A) a ls h g : (forall e, hush (h e)) -> prints st m a ls -> prints st (von_error m h g) a ls.
Proof.
  intros H K s. unfold von_error. specialize (K s). destruct (m s) as [[[x|e] s1] i1]; auto.
  specialize (H e s1). destruct (h e s1) as [[y s2] i2]. rewrite outs_app, H, app_nil_r. exact K.
Qed.
(** The lines of a list of inputs numbered from [i]. *)
Fixpoint lines (Lf : nat -> path -> list path) (i : nat) (l : list path) : list path :=
  match l with [] => [] | f :: r => Lf i f ++ lines Lf (S i) r end.
Lemma p_veach (g : path -> V unit) Lf l : (forall i f, In f l -> prints true (g f) tt (Lf i f)) -> forall i, prints true (veach g l) tt (lines Lf i l).
Proof.
  induction l as [|f l IH]; intros H i; cbn [veach lines]; [apply p_ret|].
  eapply p_bind; [apply H; left; reflexivity|]. apply IH. intros j g' G. apply H. right. exact G.
Qed.

Section Narr.
Variable E : env.
Variable T : texts.
Ltac one := refine (p_bind _ _ _ _ [_] _ _ _); [apply p_say|].
Lemma p_single f o : prints true (v_compileSingleTo E T true f o) tt [processing f; generated o].
Proof.
  unfold v_compileSingleTo. one.
  apply p_hbind; [apply hush_on_error; [apply hush_vop|intros; apply hush_Eprintf]| |discriminate]. intros c.
  apply p_hbind; [apply hush_parse| |discriminate]. intros md.
  apply p_hbind; [apply hush_on_error; [apply hush_vop|intros; apply hush_Eprintf]| |discriminate]. intros _.
  apply p_hbind; [apply hush_vop| |discriminate]. intros _. apply p_hbind; [apply hush_vop| |discriminate]. intros _. apply p_say.
Qed.
Lemma p_toIR a f t : isb f = true -> t <> [] -> prints true (v_compileToIR E T true (irArgs a f t)) tt [processing f; generated t].
Proof.
  intros B N. unfold v_compileToIR, irArgs. cbn [InputFiles OutputFile veach]. unfold isb in B. rewrite B. cbn [negb].
  assert (path_eqb t [] = false) as -> by (destruct (path_eqb_spec t []); congruence). cbn [negb].
  apply p_hbind; [intros s; reflexivity| |discriminate]. intros _. apply p_single.
Qed.
Lemma p_run x o h g : hush h -> prints false (v_run_clang E T true x o h g) tt [running T x].
Proof.
  intros H. unfold v_run_clang. rewrite join_words. refine (p_bindw _ _ _ _ _ [_] [] _ _ _).
  - apply p_say.
  - apply p_on_error; [auto|]. apply p_hush, hush_vop.
  - discriminate.
Qed.
Lemma p_asmOne a f o : prints true (v_asmOne E T true a f o) tt
  (if isb f then [processing f; generated (o ++ txt ".tmp.ll"); running T (asmArgs a (o ++ txt ".tmp.ll") o); generated o]
   else [running T (asmArgs a f o); generated o]).
Proof.
  unfold v_asmOne. fold (isb f). destruct (isb f) eqn:B; cbn zeta.
  - refine (p_bind _ _ _ _ [_; _] _ _ _); [apply p_toIR; auto; destruct o; discriminate|].
    refine (p_bindw _ _ _ _ _ [_] _ _ _ _); [apply p_run, hush_drop_temp| |discriminate].
    apply p_hbind; [apply hush_drop_temp| |discriminate]. intros _. apply p_say.
  - refine (p_bindw _ _ _ _ _ [_] _ _ _ _); [apply p_run, hush_ret| |discriminate]. apply p_say.
Qed.
Lemma p_objOne a f o : prints true (v_objOne E T true a f o) tt
  (if isb f then [processing f; generated (o ++ txt ".tmp.ll"); running T (objArgs a (o ++ txt ".tmp.ll") o); generated o]
   else [running T (objArgs a f o); generated o]).
Proof.
  unfold v_objOne. fold (isb f). destruct (isb f) eqn:B; cbn zeta.
  - refine (p_bind _ _ _ _ [_; _] _ _ _); [apply p_toIR; auto; destruct o; discriminate|].
    refine (p_bindw _ _ _ _ _ [_] _ _ _ _); [apply p_run, hush_drop_temp| |discriminate].
    apply p_hbind; [apply hush_drop_temp| |discriminate]. intros _. apply p_say.
  - refine (p_bindw _ _ _ _ _ [_] _ _ _ _); [apply p_run, hush_ret| |discriminate]. apply p_say.
Qed.
Lemma p_exe_inputs a l : forall i ts ins, prints false (v_exe_inputs E T true a i l ts ins) (ts ++ new_temps a i l, ins ++ new_ins a i l)
  (lines (fun i f => if isb f then [processing f; generated (temp_name a i f (txt ".b"))] else []) i l).
Proof.
  induction l as [|f l IH]; intros i ts ins; cbn [v_exe_inputs lines new_temps new_ins].
  - rewrite !app_nil_r. apply p_ret.
  - destruct (path_eqb (Ext f) (txt ".b")) eqn:B; pose proof B as B'; rewrite <- isb_Ext in B'; rewrite B'.
    + destruct (path_eqb_spec (Ext f) (txt ".b")) as [->|]; [|discriminate].
      eapply (p_bindw _ _ _ tt).
      * apply p_on_error; [intros; apply hush_drop_temps|]. apply p_weak, p_toIR; auto. apply temp_ne.
      * specialize (IH (S i) (ts ++ [temp_name a i f (txt ".b")]) (ins ++ [temp_name a i f (txt ".b")])).
        rewrite <- !app_assoc in IH. exact IH.
      * discriminate.
    + destruct (_ || _).
      * specialize (IH (S i) ts (ins ++ [f])). rewrite <- !app_assoc in IH. exact IH.
      * apply p_fail. discriminate.
Qed.

(** The lines in terms of the model. *)
Definition lines_of (a : CompileOptions) (m : OutputType) (i : nat) (f : path) : list path :=
  match m with
  | OutputIR => [processing f; generated (O_ a m f)]
  | OutputExecutable => if isb f then [processing f; generated (T_ a m i f)] else []
  | _ => if isb f then [processing f; generated (T_ a m i f); running T (cmd_ E a m i f); generated (O_ a m f)]
         else [running T (cmd_ E a m i f); generated (O_ a m f)]
  end.
Definition last_lines (a : CompileOptions) (m : OutputType) : list path :=
  match m with
  | OutputExecutable => [running T (cmd_ E a m 0 []); generated (O_ a m [])]
  | _ => []
  end.
Definition compiling_line (a : CompileOptions) : path :=
  says (txt "compiling " ++ txt (dec (Z.of_nat (List.length (InputFiles a)))) ++ txt " file(s)").
Lemma lines_ext Lf Lg l : (forall i f, In f l -> Lf i f = Lg i f) -> forall i, lines Lf i l = lines Lg i l.
Proof. induction l as [|f l IH]; intros H i; cbn [lines]; auto. rewrite (H i f), IH; auto; [intros; apply H; right; auto|left; reflexivity]. Qed.
Lemma hush_checks (c : path -> bool) e l : hush (veach (fun f => if c f then vfail (e f) else vret tt) l).
Proof. apply hush_veach. intros f. destruct (c f); [apply hush_fail|apply hush_ret]. Qed.
(** The three modes without linking. *)
Lemma p_mode (a : CompileOptions) (chk : V unit) one e suf (Lf : nat -> path -> list path) :
  bad_o a = false -> InputFiles a <> [] -> hush chk ->
  (forall i f, prints true (one f (on_of a suf f)) tt (Lf i f)) -> (forall i f, Lf i f <> []) ->
  prints true (chk ;; if negb (path_eqb (OutputFile a) []) then match InputFiles a with [f] => one f (OutputFile a) | _ => vfail e end
    else veach (fun f => one f (out_name f suf)) (InputFiles a)) tt (lines Lf 0 (InputFiles a)).
Proof.
  intros HB NE HC H NL. apply p_hbind; auto.
  - intros _. unfold bad_o in HB. unfold on_of in H. destruct (path_eqb (OutputFile a) []); cbn [negb andb] in *.
    + apply (p_veach (fun f => one f (out_name f suf))). intros i f _. apply H.
    + destruct (InputFiles a) as [|f [|g l]]; try discriminate; try congruence. cbn [lines]. rewrite app_nil_r. apply H.
  - intros _. destruct (InputFiles a) as [|f l]; [congruence|]. cbn [lines]. intros Z. apply app_eq_nil in Z. destruct Z as [Z _]. exact (NL _ _ Z).
Qed.
Lemma p_Compile a : let m := OutType a in InputFiles a <> [] -> m = OutputExecutable \/ bad_o a = false ->
  prints true (v_Compile E T true a) tt (compiling_line a :: lines (lines_of a m) 0 (InputFiles a) ++ last_lines a m).
Proof.
  intros m NE HB. unfold v_Compile. one. destruct (OutType a) eqn:EM; subst m.
  - clear HB. unfold v_compileToExecutable. fold (with_output a). destruct (with_output_fields a) as (EI & ES & EOpt & EDbg & EDir & ELib & EOut).
    rewrite EI. eapply p_bindw.
    + pose proof (p_exe_inputs (with_output a) (InputFiles a) 0 [] []) as P. cbn [app] in P. exact P.
    + cbn beta iota. refine (p_bindw _ _ _ _ _ [_] _ _ _ _); [apply p_run, hush_drop_temps| |discriminate].
      apply p_hbind; [apply hush_drop_temps| |discriminate]. intros _. rewrite EOut. apply p_say.
    + discriminate.
  - destruct HB as [?|HB]; [discriminate|]. cbn [last_lines]. rewrite app_nil_r. apply p_mode; auto.
    + apply (hush_checks (fun f => negb _ && negb _ && negb _)).
    + intros i f. pose proof (p_objOne a f (O_ a OutputObject f)) as P. unfold lines_of, cmd_. destruct (isb f); exact P.
    + intros i f. cbn. destruct (isb f); discriminate.
  - destruct HB as [?|HB]; [discriminate|]. cbn [last_lines]. rewrite app_nil_r. apply p_mode; auto.
    + apply (hush_checks (fun f => negb _ && negb _)).
    + intros i f. pose proof (p_asmOne a f (O_ a OutputAssembly f)) as P. unfold lines_of, cmd_. destruct (isb f); exact P.
    + intros i f. cbn. destruct (isb f); discriminate.
  - destruct HB as [?|HB]; [discriminate|]. cbn [last_lines]. rewrite app_nil_r. unfold v_compileToIR. apply p_mode; auto.
    + apply (hush_checks (fun f => negb _)).
    + intros i f. apply p_single.
    + intros i f. discriminate.
Qed.

(** ** Inputs that the mode does not accept *)
Lemma checks_stop (c : path -> bool) e l s : existsb c l = true ->
  exists x, veach (fun f => if c f then vfail (e f) else vret tt) l s = (inr x, s, []).
Proof.
  induction l as [|f l IH]; [discriminate|]. cbn [existsb veach]. unfold vbind. destruct (c f); cbn [orb].
  - intros _. cbn. eauto.
  - intros H. cbn [vret]. destruct (IH H) as (x & ->). eauto.
Qed.
Lemma fails_mode (a : CompileOptions) c em (one : path -> path -> V unit) e suf s : existsb c (InputFiles a) = true \/ bad_o a = true ->
  exists x, (veach (fun f => if c f then vfail (em f) else vret tt) (InputFiles a) ;;
    if negb (path_eqb (OutputFile a) []) then match InputFiles a with [f] => one f (OutputFile a) | _ => vfail e end
    else veach (fun f => one f (out_name f suf)) (InputFiles a)) s = (inr x, s, []).
Proof.
  intros H. destruct (existsb c (InputFiles a)) eqn:EX.
  - destruct (checks_stop c em (InputFiles a) s EX) as (x & HX). exists x. unfold vbind. rewrite HX. reflexivity.
  - destruct H as [H|H]; [discriminate|].
    assert (K : veach (fun f => if c f then vfail (em f) else vret tt) (InputFiles a) s = (inl tt, s, [])).
    { revert EX. clear. induction (InputFiles a) as [|f l IH]; [reflexivity|]. cbn [existsb veach]. destruct (c f); cbn [orb]; [discriminate|].
      intros EX. unfold vbind. cbn [vret]. rewrite (IH EX). reflexivity. }
    unfold vbind. rewrite K. unfold bad_o in H. destruct (path_eqb (OutputFile a) []); [discriminate|]. cbn [negb andb] in *.
    destruct (InputFiles a) as [|f [|g l]]; try discriminate; cbn; eauto.
Qed.
Lemma existsb_forallb {A} (c d : A -> bool) l : (forall x, c x = negb (d x)) -> forallb d l = false -> existsb c l = true.
Proof. intros H. induction l as [|x l IH]; cbn; [discriminate|]. rewrite H. destruct (d x); cbn; auto. Qed.
Lemma fails_Compile a s : let m := OutType a in m <> OutputExecutable ->
  forallb (accepts m) (InputFiles a) = false \/ bad_o a = true ->
  exists e, v_Compile E T true a s = (inr e, s, [TOut (compiling_line a)]).
Proof.
  intros m NX H. unfold v_Compile. unfold vbind at 1. cbn [say vprint]. fold (compiling_line a).
  assert (G : exists x, match OutType a with
     | OutputExecutable => v_compileToExecutable E T true a | OutputObject => v_compileToObject E T true a
     | OutputAssembly => v_compileToAssembly E T true a | OutputIR => v_compileToIR E T true a end s = (inr x, s, [])).
  { destruct (OutType a) eqn:EM; subst m; [congruence| | |].
    - apply (fails_mode a (fun f => negb _ && negb _ && negb _)). destruct H as [H|H]; auto. left. revert H. apply existsb_forallb.
      intros f. unfold accepts. cbn. repeat match goal with |- context [path_eqb (Ext f) ?y] => destruct (path_eqb (Ext f) y) end; reflexivity.
    - apply (fails_mode a (fun f => negb _ && negb _)). destruct H as [H|H]; auto. left. revert H. apply existsb_forallb.
      intros f. unfold accepts. cbn. repeat match goal with |- context [path_eqb (Ext f) ?y] => destruct (path_eqb (Ext f) y) end; reflexivity.
    - apply (fails_mode a (fun f => negb _)). destruct H as [H|H]; auto. left. revert H. apply existsb_forallb.
      intros f. fold (isb f). rewrite isb_Ext. unfold accepts. cbn. destruct (path_eqb (Ext f) _); reflexivity. }
  destruct G as (x & ->). eauto.
Qed.

(** ** The lines with the documented names *)
Variable fl : flags.
Variable m : OutputType.
Hypothesis HM : mode_is fl m.
Hypothesis HA : forallb (accepts m) (f_files fl) = true.
Variable level : Z.
Hypothesis HL : opt_level (f_optimize fl) = Some level.
Notation a := (options_of E fl level).
Lemma b_file f : isb f = true <-> a_b_file f.
Proof. apply isb_named. Qed.
Lemma about_lines i f : nth_error (f_files fl) i = Some f -> about T fl m i f (lines_of a m i f).
Proof.
  intros Hi. assert (IF : In f (f_files fl)) by (eapply nth_error_In; eauto).
  pose proof (proj2 (run_outputs E fl m level f HM HA IF _) eq_refl) as HO.
  assert (NB : isb f = false -> ~ a_b_file f) by (intros B H; apply b_file in H; congruence).
  unfold about, lines_of. destruct m eqn:Em.
  - destruct (isb f) eqn:B; [left|right; auto]. split; [apply b_file; auto|]. eexists. split; [|reflexivity].
    apply (temp_iff E fl OutputExecutable level); auto. discriminate.
  - eexists. exists (if isb f then T_ a OutputObject i f else f). split; [exact HO|]. split; [apply clang_input_spec; auto; discriminate|]. cbn zeta.
    unfold cmd_, objArgs. rewrite (lead_flags E fl level HL). destruct (isb f) eqn:B; [left|right]; (split; [try (apply b_file; assumption); auto|reflexivity]).
  - eexists. exists (if isb f then T_ a OutputAssembly i f else f). split; [exact HO|]. split; [apply clang_input_spec; auto; discriminate|]. cbn zeta.
    unfold cmd_, asmArgs. rewrite (lead_flags E fl level HL). destruct (isb f) eqn:B; [left|right]; (split; [try (apply b_file; assumption); auto|reflexivity]).
  - eexists. split; [exact HO|reflexivity].
Qed.
Lemma about_all_lines : forall l i, (forall j f, nth_error l j = Some f -> nth_error (f_files fl) (i + j) = Some f) ->
  about_all T fl m i l (lines (lines_of a m) i l).
Proof.
  induction l as [|f l IH]; intros i H; cbn [lines]; constructor.
  - apply about_lines. rewrite <- (Nat.add_0_r i). apply H. reflexivity.
  - apply IH. intros j g Hj. rewrite Nat.add_succ_comm. apply H. exact Hj.
Qed.
Lemma link_command : m = OutputExecutable -> f_files fl <> [] -> clang_command E fl m (cmd_ E a m 0 []).
Proof.
  intros Em NE. subst m. cbn [clang_command cmd_]. set (b := with_output a).
  destruct (with_output_fields a) as (EI & _ & EOpt & EDbg & EDir & ELib & EOut). fold b in EI, EOpt, EDbg, EDir, ELib, EOut.
  assert (AH : accepts OutputExecutable (hd [] (f_files fl)) = true).
  { rewrite forallb_forall in HA; apply HA. destruct (f_files fl); [congruence|cbn; auto]. }
  destruct (new_ins_spec b (f_files fl) 0) as [NL NS].
  exists (new_ins b 0 (f_files fl)), (OutputFile b). splits; auto.
  - unfold linkArgs. cbn [options_of InputFiles]. rewrite EDir, ELib.
    assert (EL : level_flags b = lead fl).
    { rewrite <- (lead_flags E fl level HL). unfold level_flags. rewrite EOpt, EDbg. reflexivity. }
    rewrite EL. cbn [options_of LibraryDirs Libraries]. rewrite filter_home. reflexivity.
  - apply (exe_output E fl OutputExecutable level); auto.
  - intros j g Hj. eexists. split; [apply (NS j g Hj)|]. cbn [Nat.add].
    refine (clang_input_spec E fl OutputExecutable level j g _ HA Hj). discriminate.
Qed.
Lemma narration_lines : f_files fl <> [] -> narration E T fl m (compiling_line a :: lines (lines_of a m) 0 (f_files fl) ++ last_lines a m).
Proof.
  intros NE. exists (lines (lines_of a m) 0 (f_files fl)), (last_lines a m). split; [|split; [|reflexivity]].
  - apply about_all_lines. auto.
  - pose proof (fun X => link_command X NE) as LC. unfold at_end, last_lines. destruct m eqn:Em; auto. eexists. eexists. split; [apply LC; auto|]. split; [|reflexivity].
    assert (AH : accepts OutputExecutable (hd [] (f_files fl)) = true).
    { rewrite forallb_forall in HA; apply HA. destruct (f_files fl); [congruence|cbn; auto]. }
    apply (proj2 (exe_output E fl OutputExecutable level (O_ a OutputExecutable []) eq_refl AH)).
    destruct (with_output_fields a) as (_ & _ & _ & _ & _ & _ & ->). reflexivity.
Qed.
End Narr.

(** ** The whole run *)
Section Run.
Variable E : env.
Variable T : texts.
Lemma no_event_veach fl s : match veach (v_check_input E T) (f_files fl) s with (_, _, i) => outs i = [] end.
Proof. apply hush_veach. intros; apply hush_vop. Qed.
Lemma check_accepts fl s : match veach (v_check_input E T) (f_files fl) s with (inl _, _, _) => forallb (accepts OutputExecutable) (f_files fl) = true | _ => True end.
Proof.
  pose proof (s_veach (v_check_input E T) (check_input E) (f_files fl) (fun f _ => s_check E T f) s) as S.
  pose proof (checks_spec E (f_files fl) s) as C. destruct (veach _ _ s) as [[[u|e] s1] i]; auto.
  destruct (each _ _ s) as [u' s2|]; [|contradiction]. apply forallb_forall. intros g G. apply C. exact G.
Qed.
Lemma main_narrates fl m s : compiling fl -> f_no_args fl = false -> mode_is fl m ->
  match v_main E T true fl s with (st, _, i) =>
    (st = 0 -> narration E T fl m (outs i)) /\
    (st = 1 -> outs i = [] \/ outs i = [compiling_line (options_of E fl 0)]
               \/ exists r, r <> [] /\ narration E T fl m (outs i ++ r)) end.
Proof.
  intros [H1 H2] H3 HM. unfold v_main. rewrite H1, H2, H3. destruct (f_files fl) as [|f0 l0] eqn:EF; [split; [discriminate|auto]|]. rewrite <- EF.
  assert (NE : f_files fl <> []) by congruence.
  destruct (opt_level _) as [level|] eqn:HL; [|split; [discriminate|auto]].
  unfold vbind. pose proof (no_event_veach fl s) as C. pose proof (check_accepts fl s) as CA. destruct (veach _ _ s) as [[[u|e] s1] i1].
  2:{ cbn. rewrite outs_app, C. split; [discriminate|auto]. }
  assert (OT : OutType (options_of E fl level) = m) by (apply mode_a; auto).
  destruct (forallb (accepts m) (f_files fl)) eqn:HA.
  - assert (D : m = OutputExecutable \/ bad_o (options_of E fl level) = false \/ (m <> OutputExecutable /\ bad_o (options_of E fl level) = true)).
    { destruct (bad_o _); destruct m; auto; right; right; (split; [discriminate|auto]). }
    assert (P : m = OutputExecutable \/ bad_o (options_of E fl level) = false ->
      prints true (v_Compile E T true (options_of E fl level)) tt
        (compiling_line (options_of E fl level) :: lines (lines_of E T (options_of E fl level) m) 0 (f_files fl) ++ last_lines E T (options_of E fl level) m)).
    { intros Q. pose proof (p_Compile E T (options_of E fl level)) as P. cbn zeta in P. rewrite OT in P. apply P; auto. }
    pose proof (narration_lines E T fl m HM HA level HL NE) as N.
    destruct D as [D|[D|[D1 D2]]].
    1,2: specialize (P ltac:(auto) s1); unfold v_status; destruct (v_Compile _ _ _ _ s1) as [[[u'|e] s2] i2];
      [destruct P as (_ & P); rewrite outs_app, C, P; split; [auto|discriminate]
      |destruct P as (r & P & Q); rewrite !outs_app, C; cbn [outs]; rewrite app_nil_r; cbn [app]; split; [discriminate|];
       intros _; right; right; exists r; split; [auto|rewrite <- P; exact N]].
    destruct (fails_Compile E T (options_of E fl level) s1) as (e & X); rewrite ?OT; auto. rewrite X. cbn [v_status]. rewrite !outs_app, C. cbn [outs app].
    split; [discriminate|]. auto.
  - assert (NX : m <> OutputExecutable \/ m = OutputExecutable) by (destruct m; auto; left; discriminate). destruct NX as [NX|NX].
    + destruct (fails_Compile E T (options_of E fl level) s1) as (e & X); rewrite ?OT; auto. rewrite X. cbn [v_status]. rewrite !outs_app, C. cbn [outs app].
      split; [discriminate|]. auto.
    + rewrite NX in HA. congruence.
Qed.
End Run.
