(** * OutErr: what the driver prints on the standard error output *)
From Coq Require Import List Ascii String ZArith Lia Bool.
From Verif Require Import Base Lexer IR Decl PropsTotal Driver Cmdline SpecDriver DriverFacts DriverModes DriverSummary DriverOut SpecOut DriverOutFacts OutFacts PropsDriver OutNarr PropsDiag.
Import ListNotations.
Open Scope Z_scope.
Open Scope v_scope.

Lemma no_fuel c b : compile c b <> Fuel.
Proof. destruct (C08_terminates c b) as [[x ->]|[x ->]]; discriminate. Qed.
Section Err.
Variable E : env.
Variable T : texts.
Variable v : bool.
Variable fl : flags.
Variable m : OutputType.
Variable s0 : dstate.
(** The source files have not been changed. *)
Definition sources (s : dstate) : Prop := forall f, isb f = true -> d_fs s f = d_fs s0 f.
Notation P := (complaint E T fl m s0).
(** A function that prints nothing on the standard error output if it succeeds and
    a complaint if it fails; with [keep], it leaves the source files alone. *)
Definition gr {A} (keep : bool) (x : V A) (Q : A -> Prop) : Prop := forall s, sources s ->
  match x s with
  | (inl a, s', i) => errs_of i = [] /\ Q a /\ (keep = true -> sources s')
  | (inr e, _, i) => P (errs_of i) e
  end.
Notation any := (fun _ => True).
Lemma g_weak {A} k (x : V A) Q : gr true x Q -> gr k x Q.
Proof. intros H s S. specialize (H s S). destruct (x s) as [[[a|e] s1] i]; auto. destruct H as (H1 & H2 & H3). auto. Qed.
Lemma g_ret {A} k (a : A) (Q : A -> Prop) : Q a -> gr k (vret a) Q.
Proof. intros H s S. cbn. auto. Qed.
Lemma g_fail {A} k e (Q : A -> Prop) : P [] e -> gr k (vfail e) Q.
Proof. intros H s S. exact H. Qed.
Lemma g_bind {A B} k (x : V A) (y : A -> V B) Q Q' : gr true x Q -> (forall a, Q a -> gr k (y a) Q') -> gr k (vbind x y) Q'.
Proof.
  intros H K s S. unfold vbind. specialize (H s S). destruct (x s) as [[[a|e] s1] i1]; auto.
  destruct H as (H1 & H2 & H3). specialize (K a H2 s1 (H3 eq_refl)). destruct (y a s1) as [[[b|e] s2] i2]; rewrite errs_app, H1; exact K.
Qed.
(** What follows neither fails nor touches anything but [p]. *)
Definition harmless (x : V unit) : Prop := forall s, match x s with (r, _, i) => r = inl tt /\ errs_of i = [] end.
Lemma g_then {A} (x : V unit) (y : A -> V unit) (z : V A) Q : gr false z Q -> (forall a, harmless (y a)) -> gr false (vbind z y) any.
Proof.
  intros H K s S. unfold vbind. specialize (H s S). destruct (z s) as [[[a|e] s1] i1]; auto.
  destruct H as (H1 & H2 & _). specialize (K a s1). destruct (y a s1) as [[r s2] i2]. destruct K as (-> & K). rewrite errs_app, H1, K. split; auto. split; auto. discriminate.
Qed.
Lemma h_say t : harmless (say v t).
Proof. intros s. unfold say. destruct v; cbn; auto. Qed.
Lemma h_ret : harmless (vret tt).
Proof. intros s. cbn. auto. Qed.
Lemma h_bind x y : harmless x -> harmless y -> harmless (x ;; y).
Proof.
  intros H K s. unfold vbind. specialize (H s). destruct (x s) as [[r s1] i1]. destruct H as (-> & H). specialize (K s1). destruct (y s1) as [[r2 s2] i2].
  destruct K as (-> & K). rewrite errs_app, H, K. auto.
Qed.
Lemma h_remove p : harmless (sys T (os_remove E p)).
Proof.
  intros s. unfold sys, vop, os_remove. destruct (d_fs s p); [destruct (remove_fault E (d_tick s))|]; rewrite errs_ev; auto.
Qed.
Lemma h_drop_temp a t : harmless (v_drop_temp E T a t).
Proof. unfold v_drop_temp. destruct (SaveTemps a); [apply h_ret|apply h_remove]. Qed.
Lemma h_drop_temps a ts : harmless (v_drop_temps E T a ts).
Proof.
  unfold v_drop_temps. destruct (SaveTemps a); [apply h_ret|]. induction ts; cbn [veach]; [apply h_ret|]. apply h_bind; [apply h_remove|exact IHts].
Qed.
Lemma g_say k t : gr k (say v t) any.
Proof. intros s S. unfold say. destruct v; cbn; auto. Qed.
Lemma upd_sources s p c ev : sources s -> isb p = false -> sources (tick s (upd (d_fs s) p c) ev).
Proof. intros S B f F. cbn. rewrite upd_other; [apply S; exact F|]. intros ->. congruence. Qed.
Lemma same_sources s ev : sources s -> sources (tick s (d_fs s) ev).
Proof. intros S. exact S. Qed.

(** Files to be written before all sources are read. *)
Lemma g_open f k : In f (f_files fl) -> isb f = true ->
  gr k (von_error (sys T (os_open E f)) (fun e => vEprintf (f ++ txt ": " ++ e ++ [LF] ++ txt "compilation terminated." ++ [LF])) (fun e => e))
    (fun c => d_fs s0 f = Some c).
Proof.
  intros HF B s S. unfold von_error, sys, vop, os_open. pose proof (S f B) as SF. destruct (d_fs s f) as [c|] eqn:EC.
  - destruct (open_fault E (d_tick s)) eqn:EO.
    + cbn [vEprintf]. rewrite errs_app, errs_ev. cbn [errs_of app]. apply c_open; auto. apply isb_named; auto.
    + rewrite errs_ev. auto.
  - cbn [vEprintf]. rewrite errs_app, errs_ev. cbn [errs_of app]. apply c_open; auto. apply isb_named; auto.
Qed.
Lemma g_parse f k c : In f (f_files fl) -> isb f = true -> d_fs s0 f = Some c -> gr k (v_parse_file E T c) any.
Proof.
  intros HF B EC s S. unfold v_parse_file. cbn zeta. assert (AB : a_b_file f) by (apply isb_named; auto).
  destruct (read_fault E (d_tick s)) as [j|] eqn:ER.
  - pose proof (C87_catalogue (firstn j c) true) as K. destruct (compile (firstn j c) true) as [md u|[| |e]|] eqn:EK; cbn.
    + auto.
    + specialize (K _ eq_refl). discriminate.
    + eapply c_read; eauto.
    + eapply c_read; eauto.
    + destruct (no_fuel _ _ EK).
  - pose proof (C87_catalogue c false) as K. destruct (compile c false) as [md u|[| |e]|] eqn:EK; cbn.
    + auto.
    + eapply c_source; eauto. reflexivity.
    + specialize (K _ eq_refl). discriminate.
    + eapply c_source; eauto. reflexivity.
    + destruct (no_fuel _ _ EK).
Qed.
Lemma g_single i f o k : nth_error (f_files fl) i = Some f -> isb f = true ->
  (m = OutputIR /\ is_output fl m f o \/ is_temp fl m i f o) -> (k = true -> isb o = false) ->
  gr k (v_compileSingleTo E T v f o) any.
Proof.
  intros Hi B HO HK. assert (HF : In f (f_files fl)) by (eapply nth_error_In; eauto). assert (AB : a_b_file f) by (apply isb_named; auto).
  unfold v_compileSingleTo. eapply g_bind; [apply g_say|]. intros _ _.
  eapply g_bind; [apply g_open; auto|]. intros c EC. cbn beta in EC. eapply g_bind; [eapply g_parse; eauto|]. intros md _.
  intros s S. unfold vbind, von_error. unfold sys at 1, vop at 1, os_create at 1. destruct (create_fault E (d_tick s)) eqn:ECr.
  { cbn [vEprintf]. rewrite errs_app, errs_ev. cbn [errs_of app]. eapply c_create; eauto. }
  unfold sys at 1, vop at 1, write_string at 1. match goal with |- context [write_fault E ?n] => destruct (write_fault E n) eqn:EW end.
  { rewrite errs_app, !errs_ev. apply c_write. left. rewrite EW. discriminate. }
  unfold sys at 1, vop at 1, close_file at 1. match goal with |- context [close_fault E ?n] => destruct (close_fault E n) eqn:ECl end.
  { rewrite !errs_app, !errs_ev. apply c_write. right. eassumption. }
  match goal with |- context [say v ?t ?x] => pose proof (h_say t x) as HS; destruct (say v t x) as [[r s2] i2] eqn:ES end.
  destruct HS as (-> & HS). rewrite !errs_app, !errs_ev, HS. split; [reflexivity|]. split; [exact Logic.I|]. intros K.
  assert (s2 = snd (fst (say v (txt "generated " ++ o) (tick (tick (tick s (upd (d_fs s) o (Some [])) [EvCreate o]) (upd (d_fs (tick s (upd (d_fs s) o (Some [])) [EvCreate o])) o (Some (render E md))) []) (d_fs (tick (tick s (upd (d_fs s) o (Some [])) [EvCreate o]) (upd (d_fs (tick s (upd (d_fs s) o (Some [])) [EvCreate o])) o (Some (render E md))) [])) [])))) as -> by (rewrite ES; reflexivity).
  unfold say. destruct v; cbn [fst snd vprint vret]; apply same_sources, upd_sources; auto; apply upd_sources; auto.
Qed.
Lemma g_checks (c : path -> bool) (e : path -> path) l : (forall f, In f l -> c f = true -> P [] (e f)) -> gr true (veach (fun f => if c f then vfail (e f) else vret tt) l) any.
Proof.
  induction l as [|f l IH]; intros H; cbn [veach]; [apply g_ret; exact Logic.I|]. apply (g_bind _ _ _ any).
  - destruct (c f) eqn:EC; [apply g_fail, H; [left; reflexivity|exact EC]|apply g_ret; exact Logic.I].
  - intros _ _. apply IH. intros g G. apply H. right. exact G.
Qed.
Lemma g_toIR a i f t : nth_error (f_files fl) i = Some f -> isb f = true -> is_temp fl m i f t -> isb t = false -> t <> [] ->
  gr true (v_compileToIR E T v (irArgs a f t)) any.
Proof.
  intros Hi B HT NB NE. unfold v_compileToIR, irArgs. cbn [InputFiles OutputFile]. 
  assert (path_eqb t [] = false) as -> by (destruct (path_eqb_spec t []); congruence). cbn [negb].
  eapply g_bind.
  - apply (g_checks (fun f => negb (HasSuffix f _))). intros g [<-|[]] X. unfold isb in B. rewrite B in X. discriminate.
  - intros _ _. eapply g_single; eauto.
Qed.
Lemma g_run x o h k : harmless h -> clang_command E fl m x -> (k = true -> isb o = false) -> gr k (v_run_clang E T v x o h (product m)) any.
Proof.
  intros H C HK. unfold v_run_clang. eapply g_bind; [apply g_say|]. intros _ _ s S. unfold von_error, sys, vop, run_clang.
  destruct (clang E (d_tick s) x (d_fs s)) as [c|[c|]] eqn:EC.
  - rewrite errs_ev. split; [reflexivity|]. split; [exact Logic.I|]. intros K. apply upd_sources; auto.
  - match goal with |- context [h ?z] => specialize (H z); destruct (h z) as [[r s3] i3] end. destruct H as (_ & H).
    rewrite errs_app, errs_ev, H. eapply c_clang; eauto.
  - match goal with |- context [h ?z] => specialize (H z); destruct (h z) as [[r s3] i3] end. destruct H as (_ & H).
    rewrite errs_app, errs_ev, H. eapply c_clang; eauto.
Qed.
Lemma g_drop_temp a t : isb t = false -> gr true (v_drop_temp E T a t) any.
Proof.
  intros B. unfold v_drop_temp. destruct (SaveTemps a); [apply g_ret; exact Logic.I|]. intros s S. unfold sys, vop, os_remove.
  destruct (d_fs s t); [destruct (remove_fault E (d_tick s))|]; rewrite errs_ev; (split; [reflexivity|split; [exact Logic.I|]]); intros _; auto; apply upd_sources; auto.
Qed.
Lemma tmp_not_b o : isb (o ++ txt ".tmp.ll") = false /\ o ++ txt ".tmp.ll" <> [].
Proof.
  split; [|destruct o; discriminate]. destruct (isb (o ++ txt ".tmp.ll")) eqn:B; auto. exfalso. exact (isb_not_tmp _ o B eq_refl).
Qed.

Section Accepted.
Hypothesis HM : mode_is fl m.
Hypothesis HA : forallb (accepts m) (f_files fl) = true.
Variable level : Z.
Hypothesis HL : opt_level (f_optimize fl) = Some level.
Notation a := (options_of E fl level).
Lemma files_output f : In f (f_files fl) -> is_output fl m f (O_ a m f).
Proof. intros H. apply (run_outputs E fl m level f HM HA H). reflexivity. Qed.
Lemma g_end (x : V unit) (y : unit -> V unit) k : gr k x any -> (k = true -> gr true (y tt) any) -> (k = false -> harmless (y tt)) -> gr k (vbind x y) any.
Proof.
  intros H K1 K2. destruct k.
  - eapply g_bind; [exact H|]. intros [] _. auto.
  - eapply (g_then (vret tt)); [exact H|]. intros []. auto.
Qed.
Lemma g_asmOne i f k : m = OutputAssembly -> nth_error (f_files fl) i = Some f -> (k = true -> isb (O_ a m f) = false) ->
  gr k (v_asmOne E T v a f (O_ a m f)) any.
Proof.
  intros Em Hi HK. assert (IF : In f (f_files fl)) by (eapply nth_error_In; eauto). assert (NI : m <> OutputIR) by (rewrite Em; discriminate).
  pose proof (files_output f IF) as HO. pose proof (clang_input_spec E fl m level i f NI HA Hi) as CI.
  assert (C : clang_command E fl m (asmArgs a (if isb f then T_ a m i f else f) (O_ a m f))).
  { rewrite Em in *. cbn [clang_command]. exists i, f. do 2 eexists. split; [exact Hi|]. split; [|split].
    - unfold asmArgs. rewrite (lead_flags E fl level HL). reflexivity.
    - exact HO.
    - exact CI. }
  assert (EP : txt "assembly" = product m) by (rewrite Em; reflexivity).
  unfold v_asmOne. fold (isb f). destruct (isb f) eqn:B; cbn zeta.
  - destruct (tmp_not_b (O_ a m f)) as [TB TN]. assert (ET : T_ a m i f = O_ a m f ++ txt ".tmp.ll") by (rewrite Em; reflexivity). rewrite ET in C.
    assert (IT : is_temp fl m i f (O_ a m f ++ txt ".tmp.ll")) by (rewrite <- ET; apply (temp_iff E fl m level); auto).
    eapply g_bind; [eapply g_toIR; eauto|]. intros _ _. rewrite EP. apply g_end.
    + apply g_run; auto. apply h_drop_temp.
    + intros _. eapply g_bind; [apply g_drop_temp; auto|]. intros _ _. apply g_say.
    + intros _. apply h_bind; [apply h_drop_temp|apply h_say].
  - rewrite EP. apply g_end.
    + apply g_run; auto. apply h_ret.
    + intros _. apply g_say.
    + intros _. apply h_say.
Qed.
Lemma g_objOne i f k : m = OutputObject -> nth_error (f_files fl) i = Some f -> (k = true -> isb (O_ a m f) = false) ->
  gr k (v_objOne E T v a f (O_ a m f)) any.
Proof.
  intros Em Hi HK. assert (IF : In f (f_files fl)) by (eapply nth_error_In; eauto). assert (NI : m <> OutputIR) by (rewrite Em; discriminate).
  pose proof (files_output f IF) as HO. pose proof (clang_input_spec E fl m level i f NI HA Hi) as CI.
  assert (C : clang_command E fl m (objArgs a (if isb f then T_ a m i f else f) (O_ a m f))).
  { rewrite Em in *. cbn [clang_command]. exists i, f. do 2 eexists. split; [exact Hi|]. split; [|split].
    - unfold objArgs. rewrite (lead_flags E fl level HL). reflexivity.
    - exact HO.
    - exact CI. }
  assert (EP : txt "object file" = product m) by (rewrite Em; reflexivity).
  unfold v_objOne. fold (isb f). destruct (isb f) eqn:B; cbn zeta.
  - destruct (tmp_not_b (O_ a m f)) as [TB TN]. assert (ET : T_ a m i f = O_ a m f ++ txt ".tmp.ll") by (rewrite Em; reflexivity). rewrite ET in C.
    assert (IT : is_temp fl m i f (O_ a m f ++ txt ".tmp.ll")) by (rewrite <- ET; apply (temp_iff E fl m level); auto).
    eapply g_bind; [eapply g_toIR; eauto|]. intros _ _. rewrite EP. apply g_end.
    + apply g_run; auto. apply h_drop_temp.
    + intros _. eapply g_bind; [apply g_drop_temp; auto|]. intros _ _. apply g_say.
    + intros _. apply h_bind; [apply h_drop_temp|apply h_say].
  - rewrite EP. apply g_end.
    + apply g_run; auto. apply h_ret.
    + intros _. apply g_say.
    + intros _. apply h_say.
Qed.
Lemma nth_app_in {A} (l r : list A) x : nth_error (l ++ x :: r) (List.length l) = Some x.
Proof. rewrite nth_error_app2 by lia. rewrite Nat.sub_diag. reflexivity. Qed.
Lemma g_veach (g : path -> V unit) : (forall i f, nth_error (f_files fl) i = Some f -> gr true (g f) any) ->
  forall l d, f_files fl = d ++ l -> gr true (veach g l) any.
Proof.
  intros H. induction l as [|f l IH]; intros d ED; cbn [veach]; [apply g_ret; exact Logic.I|].
  eapply g_bind.
  - apply (H (List.length d)). rewrite ED. apply nth_app_in.
  - intros _ _. apply (IH (d ++ [f])). rewrite <- app_assoc. exact ED.
Qed.
(** The three modes without linking. *)
Lemma default_not_b f : m <> OutputExecutable -> f_output fl = [] -> isb (O_ a m f) = false.
Proof.
  intros NX EO. unfold O_, on_of. cbn [options_of OutputFile]. rewrite EO. change (path_eqb [] []) with true. cbv iota.
  unfold out_name. destruct (isb _) eqn:B; auto. exfalso. apply HasSuffix_spec in B. destruct B as (q & B).
  apply (f_equal (@rev ascii)) in B. rewrite !rev_app_distr in B. destruct m; try congruence; cbn in B; discriminate.
Qed.
Lemma g_mode (chk : V unit) one e suf : m <> OutputExecutable -> suf = suffix m ->
  gr true chk any -> (m <> OutputExecutable -> f_output fl <> [] -> List.length (f_files fl) <> 1%nat -> P [] e) ->
  (forall i f k, nth_error (f_files fl) i = Some f -> (k = true -> isb (O_ a m f) = false) -> gr k (one f (O_ a m f)) any) ->
  gr false (chk ;; if negb (path_eqb (OutputFile a) []) then match InputFiles a with [f] => one f (OutputFile a) | _ => vfail e end
    else veach (fun f => one f (out_name f suf)) (InputFiles a)) any.
Proof.
  intros NX -> HC HP H. eapply g_bind; [exact HC|]. intros _ _. cbn [options_of OutputFile InputFiles].
  assert (OE : forall f, O_ a m f = if path_eqb (f_output fl) [] then out_name f (suffix m) else f_output fl).
  { intros f. unfold O_, on_of. cbn [options_of OutputFile]. destruct m; try congruence; reflexivity. }
  destruct (path_eqb_spec (f_output fl) []) as [EO|NO]; cbn [negb].
  - apply g_weak. apply (g_veach (fun f => one f (out_name f (suffix m)))) with (d := []); auto.
    intros i f Hi. rewrite <- OE. apply (H i); auto. intros _. apply default_not_b; auto.
  - destruct (f_files fl) as [|f [|g l]] eqn:EF.
    + apply g_fail, HP; auto; discriminate.
    + rewrite <- (OE f). apply (H 0%nat); [reflexivity|discriminate].
    + apply g_fail, HP; auto; discriminate.
Qed.
Lemma g_exe_inputs l : m = OutputExecutable -> forall d ts ins, f_files fl = d ++ l ->
  gr true (v_exe_inputs E T v (with_output a) (List.length d) l ts ins)
    (fun p => snd p = ins ++ new_ins (with_output a) (List.length d) l).
Proof.
  intros Em. induction l as [|f l IH]; intros d ts ins ED; cbn [v_exe_inputs new_ins].
  - apply g_ret. cbn. rewrite app_nil_r. reflexivity.
  - assert (Hi : nth_error (f_files fl) (List.length d) = Some f) by (rewrite ED; apply nth_app_in).
    assert (IF : In f (f_files fl)) by (eapply nth_error_In; eauto).
    assert (ED' : f_files fl = (d ++ [f]) ++ l) by (rewrite <- app_assoc; exact ED).
    assert (EL : S (List.length d) = List.length (d ++ [f])) by (rewrite app_length; cbn; lia).
    destruct (path_eqb (Ext f) (txt ".b")) eqn:B; pose proof B as B'; rewrite <- isb_Ext in B'; rewrite B'.
    + destruct (path_eqb_spec (Ext f) (txt ".b")) as [->|]; [|discriminate]. set (t := temp_name (with_output a) (List.length d) f (txt ".b")).
      assert (NI : m <> OutputIR) by (rewrite Em; discriminate).
      assert (IT : is_temp fl m (List.length d) f t) by (apply (temp_iff E fl m level); auto; rewrite Em; reflexivity).
      eapply g_bind.
      * assert (G : gr true (v_compileToIR E T v (irArgs (with_output a) f t)) any).
        { eapply g_toIR; eauto; [|apply temp_ne]. destruct (isb t) eqn:BT; auto. exfalso. unfold t in BT. exact (isb_not_temp _ _ _ _ _ BT eq_refl). }
        intros s S. unfold von_error. specialize (G s S). destruct (v_compileToIR _ _ _ _ s) as [[[u|e] s1] i1]; [exact G|].
        pose proof (h_drop_temps (with_output a) ts s1) as HD. destruct (v_drop_temps _ _ _ _ s1) as [[r s2] i2]. destruct HD as (_ & HD).
        rewrite errs_app, HD, app_nil_r. exact G.
      * intros _ _. rewrite EL. specialize (IH (d ++ [f]) (ts ++ [t]) (ins ++ [t]) ED'). intros s S. specialize (IH s S).
        destruct (v_exe_inputs _ _ _ _ _ _ _ _ s) as [[[p|e] s1] i1]; auto. destruct IH as (I1 & I2 & I3). split; [auto|]. split; [|auto].
        rewrite I2, <- app_assoc. reflexivity.
    + destruct (_ || _) eqn:OK.
      * rewrite EL. specialize (IH (d ++ [f]) ts (ins ++ [f]) ED'). intros s S. specialize (IH s S).
        destruct (v_exe_inputs _ _ _ _ _ _ _ _ s) as [[[p|e] s1] i1]; auto. destruct IH as (I1 & I2 & I3). split; [auto|]. split; [|auto].
        rewrite I2, <- app_assoc. reflexivity.
      * exfalso. rewrite forallb_forall in HA. specialize (HA f IF). rewrite Em in HA. unfold accepts in HA. cbn in HA.
        rewrite orb_false_r in HA. revert HA B OK. unfold txt. cbn.
        repeat match goal with |- context [path_eqb (Ext f) ?y] => destruct (path_eqb (Ext f) y) end; cbn; congruence.
Qed.
Lemma g_Compile : f_files fl <> [] -> gr false (v_Compile E T v a) any.
Proof.
  intros NE. unfold v_Compile. eapply g_bind; [apply g_say|]. intros _ _. assert (OT : OutType a = m) by (apply mode_a; auto). rewrite OT.
  assert (NB : forall f, In f (f_files fl) -> accepts m f = true) by (apply forallb_forall; auto).
  pose proof (link_command E fl m HM HA level HL) as LC.
  assert (D : m = OutputExecutable \/ m = OutputObject \/ m = OutputAssembly \/ m = OutputIR) by (destruct m; auto).
  destruct D as [Em|[Em|[Em|Em]]]; rewrite Em; cbv iota.
  - unfold v_compileToExecutable. fold (with_output a). destruct (with_output_fields a) as (EI & _). rewrite EI. cbn [options_of InputFiles].
    eapply g_bind; [apply (g_exe_inputs (f_files fl) Em []); auto|]. intros (ts, ins) HI. cbn [snd app List.length] in HI. subst ins. cbn beta iota.
    eapply (g_then (vret tt)).
    + assert (EP : txt "executable" = product m) by (rewrite Em; reflexivity). rewrite EP.
      apply (g_run _ _ _ false); [apply h_drop_temps| |discriminate]. specialize (LC Em NE). rewrite Em in LC |- *. exact LC.
    + intros _. apply h_bind; [apply h_drop_temps|apply h_say].
  - apply g_mode; [rewrite Em; discriminate|rewrite Em; reflexivity| | |].
    + apply (g_checks (fun f => negb _ && negb _ && negb _)). intros f IF X. exfalso. specialize (NB f IF). rewrite Em in NB. unfold accepts in NB.
      revert X NB. cbn. repeat match goal with |- context [path_eqb (Ext f) ?y] => destruct (path_eqb (Ext f) y) end; cbn; congruence.
    + intros H1 H2 H3. pose proof (c_several E T fl m s0 H1 H2 H3) as K. rewrite Em in K |- *. exact K.
    + intros i f k Hi HK. apply (g_objOne i); auto.
  - apply g_mode; [rewrite Em; discriminate|rewrite Em; reflexivity| | |].
    + apply (g_checks (fun f => negb _ && negb _)). intros f IF X. exfalso. specialize (NB f IF). rewrite Em in NB. unfold accepts in NB.
      revert X NB. cbn. repeat match goal with |- context [path_eqb (Ext f) ?y] => destruct (path_eqb (Ext f) y) end; cbn; congruence.
    + intros H1 H2 H3. pose proof (c_several E T fl m s0 H1 H2 H3) as K. rewrite Em in K |- *. exact K.
    + intros i f k Hi HK. apply (g_asmOne i); auto.
  - assert (NBf : forall f, In f (f_files fl) -> isb f = true).
    { intros f IF. specialize (NB f IF). rewrite Em in NB. rewrite isb_Ext. unfold accepts in NB. cbn in NB. rewrite orb_false_r in NB. exact NB. }
    apply g_mode; [rewrite Em; discriminate|rewrite Em; reflexivity| | |].
    + apply (g_checks (fun f => negb (HasSuffix f _))). intros f IF X. exfalso. specialize (NBf f IF). unfold isb in NBf. rewrite NBf in X. discriminate.
    + intros H1 H2 H3. pose proof (c_several E T fl m s0 H1 H2 H3) as K. rewrite Em in K |- *. exact K.
    + intros i f k Hi HK. assert (IF : In f (f_files fl)) by (eapply nth_error_In; eauto). apply (g_single i); auto.
      left. split; auto. apply files_output. exact IF.
Qed.
End Accepted.
End Err.

Section Main.
Variable E : env.
Variable T : texts.
Variable v : bool.
Variable fl : flags.
Variable m : OutputType.
Hypothesis HM : mode_is fl m.
Lemma stop_at (c : path -> bool) (e : path -> path) l s : existsb c l = true ->
  exists f, In f l /\ c f = true /\ veach (fun f => if c f then vfail (e f) else vret tt) l s = (inr (e f), s, []).
Proof.
  induction l as [|f l IH]; [discriminate|]. cbn [existsb veach]. unfold vbind. destruct (c f) eqn:EC; cbn [orb].
  - intros _. exists f. cbn. auto.
  - intros H. cbn [vret]. destruct (IH H) as (g & G1 & G2 & G3). exists g. rewrite G3. cbn. auto.
Qed.
Lemma not_accepted f : accepts m f = false -> forall st e, named f st e -> ~ In e (accepted m).
Proof. intros H st e N I. assert (accepts m f = true) by (apply accepts_named; eauto). congruence. Qed.
Lemma rejected level s s0 : m <> OutputExecutable -> forallb (accepts m) (f_files fl) = false ->
  match v_Compile E T v (options_of E fl level) s with (inr e, _, i) => complaint E T fl m s0 (errs_of i) e | _ => False end.
Proof.
  intros NX HF. unfold v_Compile. unfold vbind at 1. pose proof (h_say v (txt "compiling " ++ txt (dec (Z.of_nat (List.length (InputFiles (options_of E fl level))))) ++ txt " file(s)") s) as HS.
  destruct (say v _ s) as [[r s1] i1]. destruct HS as (-> & HS). rewrite (mode_a E fl m level HM).
  assert (EX : existsb (fun f => negb (accepts m f)) (f_files fl) = true) by (revert HF; apply existsb_forallb; auto).
  assert (G : forall (c : path -> bool) (k : V unit), (forall f, c f = negb (accepts m f)) ->
    exists x, (veach (fun f => if c f then vfail (txt "input file '" ++ f ++ txt "' " ++ mode_text m) else vret tt) (f_files fl) ;; k) s1 = (inr x, s1, [])
      /\ complaint E T fl m s0 [] x).
  { intros c k HC. assert (EX' : existsb c (f_files fl) = true).
    { revert EX. clear - HC. induction (f_files fl); cbn; auto. rewrite HC. destruct (negb _); cbn; auto. }
    destruct (stop_at c (fun f => txt "input file '" ++ f ++ txt "' " ++ mode_text m) _ s1 EX') as (f & IF & CF & ST).
    eexists. split; [unfold vbind; rewrite ST; reflexivity|]. apply c_mode; auto. apply not_accepted. rewrite HC in CF. destruct (accepts m f); [discriminate|auto]. }
  assert (D : m = OutputObject \/ m = OutputAssembly \/ m = OutputIR) by (destruct m; auto; congruence).
  assert (K : exists x, match m with OutputObject => v_compileToObject E T v (options_of E fl level) | OutputAssembly => v_compileToAssembly E T v (options_of E fl level)
     | OutputIR => v_compileToIR E T v (options_of E fl level) | OutputExecutable => v_compileToExecutable E T v (options_of E fl level) end s1 = (inr x, s1, [])
      /\ complaint E T fl m s0 [] x).
  { destruct D as [Em|[Em|Em]]; rewrite Em in G |- *; cbv iota.
    - apply (G (fun f => negb _ && negb _ && negb _)). intros f. unfold accepts. cbn.
      repeat match goal with |- context [path_eqb (Ext f) ?y] => destruct (path_eqb (Ext f) y) end; reflexivity.
    - apply (G (fun f => negb _ && negb _)). intros f. unfold accepts. cbn.
      repeat match goal with |- context [path_eqb (Ext f) ?y] => destruct (path_eqb (Ext f) y) end; reflexivity.
    - apply (G (fun f => negb (HasSuffix f _))). intros f. fold (isb f). rewrite isb_Ext. unfold accepts. cbn. destruct (path_eqb (Ext f) _); reflexivity. }
  destruct K as (x & K & C). rewrite K. rewrite app_nil_r, HS. exact C.
Qed.
Lemma checks_say s : forall l s1, (forall f, In f l -> In f (f_files fl)) -> d_fs s1 = d_fs s ->
  match veach (v_check_input E T) l s1 with
  | (inl _, s2, i) => errs_of i = [] /\ d_fs s2 = d_fs s
  | (inr e, _, i) => errs_of i = [] /\ complaint E T fl m s [] e
  end.
Proof.
  induction l as [|f l IH]; intros s1 HI F; cbn [veach]; [cbn; auto|]. unfold vbind.
  assert (IF : In f (f_files fl)) by (apply HI; left; reflexivity).
  assert (NA : (path_eqb (Ext f) (txt ".b") || path_eqb (Ext f) (txt ".ll") || path_eqb (Ext f) (txt ".s")
     || path_eqb (Ext f) (txt ".o") || path_eqb (Ext f) (txt ".a")) = accepts OutputExecutable f).
  { unfold accepts. cbn. repeat match goal with |- context [path_eqb (Ext f) ?y] => destruct (path_eqb (Ext f) y) end; reflexivity. }
  unfold v_check_input at 1. unfold vop, check_input at 1. rewrite NA. destruct (accepts OutputExecutable f) eqn:AC.
  - destruct (d_fs s1 f) as [c|] eqn:EC.
    + destruct (stat_fault E (d_tick s1)) eqn:EF.
      * rewrite errs_ev. split; auto. apply c_stat; auto.
      * match goal with |- context [veach _ l ?x] => specialize (IH x) end.
        match goal with |- context [veach _ l ?x] => destruct (veach (v_check_input E T) l x) as [[[u|e] s2] i2] end;
          rewrite errs_app, errs_ev; apply IH; auto; intros g G; apply HI; right; exact G.
    + rewrite errs_ev. split; auto. apply c_stat; auto. left. rewrite <- F. exact EC.
  - rewrite errs_ev. split; auto. change (String.eqb "unsupported input file extension" "cannot access") with false. cbv iota. apply c_kind; auto.
    intros st e N I. assert (accepts OutputExecutable f = true) by (apply accepts_named; eauto). congruence.
Qed.
Lemma level_bad o : opt_level o = None -> ~ In o [txt "0"; txt "1"; txt "2"; txt "3"].
Proof.
  unfold opt_level. intros H I. cbn [In] in I. destruct I as [<-|[<-|[<-|[<-|[]]]]]; vm_compute in H; discriminate.
Qed.
Theorem main_reports s : compiling fl -> f_no_args fl = false ->
  match v_main E T v fl s with (st, s', i) =>
    st = 0 /\ errs_of i = [] \/
    st = 1 /\ exists before e i', complaint E T fl m s before e /\ i = i' ++ [TErr (complains (e ++ [EOL]))] /\ errs_of i' = before end.
Proof.
  intros [H1 H2] H3. unfold v_main. rewrite H1, H2, H3. destruct (f_files fl) as [|f0 l0] eqn:EF.
  { right. split; auto. eexists [], _, []. split; [apply c_files; exact EF|]. split; reflexivity. }
  rewrite <- EF. assert (NE : f_files fl <> []) by congruence. destruct (opt_level _) as [level|] eqn:HL.
  2:{ right. split; auto. eexists [], _, []. split; [apply c_level, level_bad; exact HL|]. split; [|reflexivity].
      unfold complains. rewrite <- !app_assoc. reflexivity. }
  unfold vbind. pose proof (checks_say s (f_files fl) s (fun f H => H) eq_refl) as C. pose proof (check_accepts E T fl s) as CA.
  destruct (veach _ _ s) as [[[u|e] s1] i1].
  2:{ destruct C as (C1 & C2). right. split; auto. exists [], e, i1. auto. }
  destruct C as (C1 & C2).
  assert (G : match v_Compile E T v (options_of E fl level) s1 with
    | (inl _, _, i) => errs_of i = [] | (inr e, _, i) => complaint E T fl m s (errs_of i) e end).
  { destruct (forallb (accepts m) (f_files fl)) eqn:HA.
    - assert (S : sources s s1) by (intros f _; rewrite C2; reflexivity).
      pose proof (g_Compile E T v fl m s HM HA level HL NE s1 S) as G. destruct (v_Compile _ _ _ _ s1) as [[[u'|e] s2] i2]; [apply G|exact G].
    - assert (NX : m <> OutputExecutable) by (intros X; rewrite X in HA; congruence).
      pose proof (rejected level s1 s NX HA) as G. destruct (v_Compile _ _ _ _ s1) as [[[u'|e] s2] i2]; [contradiction|exact G]. }
  destruct (v_Compile _ _ _ _ s1) as [[[u'|e] s2] i2]; cbn [v_status].
  - left. rewrite errs_app, C1, G. auto.
  - right. split; auto. exists (errs_of i2), e, (i1 ++ i2). split; [exact G|]. split; [reflexivity|]. rewrite errs_app, C1. reflexivity.
Qed.
End Main.
