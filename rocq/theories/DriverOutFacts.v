(** * DriverOutFacts: the driver with its output does what Driver.v says *)
From Coq Require Import List Ascii String ZArith Lia Bool.
From Verif Require Import Base Lexer IR Decl Driver Cmdline SpecDriver DriverFacts DriverOut SpecOut.
Import ListNotations.
Open Scope Z_scope.
Open Scope v_scope.

(** ** Both models do the same *)
Definition log_of (s s' : dstate) (i : list item) : Prop := d_log s' = d_log s ++ events i.
Definition same {A} (m : V A) (d : D A) : Prop := forall s,
  match m s, d s with
  | (inl a, s1, i), DOk b s2 => a = b /\ s1 = s2 /\ log_of s s1 i
  | (inr _, s1, i), DErr _ s2 => s1 = s2 /\ log_of s s1 i
  | _, _ => False
  end.
Lemma events_app a b : events (a ++ b) = events a ++ events b.
Proof. induction a as [|[e|t|t] a IH]; cbn; auto. rewrite IH. reflexivity. Qed.
Lemma outs_app a b : outs (a ++ b) = outs a ++ outs b.
Proof. induction a as [|[e|t|t] a IH]; cbn; auto. rewrite IH. reflexivity. Qed.
Lemma errs_app a b : errs_of (a ++ b) = errs_of a ++ errs_of b.
Proof. induction a as [|[e|t|t] a IH]; cbn; auto. rewrite IH. reflexivity. Qed.
Lemma events_ev l : events (map TEv l) = l.
Proof. induction l; cbn; congruence. Qed.
Lemma outs_ev l : outs (map TEv l) = [].
Proof. induction l; cbn; auto. Qed.
Lemma errs_ev l : errs_of (map TEv l) = [].
Proof. induction l; cbn; auto. Qed.

Lemma s_ret {A} (a : A) : same (vret a) (dret a).
Proof. intros s. cbn. split; auto. split; auto. unfold log_of. cbn. rewrite app_nil_r. reflexivity. Qed.
Lemma s_fail {A} e e' : same (@vfail A e) (dfail e').
Proof. intros s. cbn. split; auto. unfold log_of. cbn. rewrite app_nil_r. reflexivity. Qed.
Lemma s_bind {A B} (m : V A) (k : A -> V B) d kd : same m d -> (forall a, same (k a) (kd a)) -> same (vbind m k) (dbind d kd).
Proof.
  intros H K s. unfold vbind, dbind. specialize (H s). destruct (m s) as [[[a|e] s1] i1], (d s) as [b s2|e2 s2]; try contradiction; auto.
  destruct H as (<- & <- & H). specialize (K a s1). destruct (k a s1) as [[[b|e] s3] i3], (kd a s1) as [b2 s4|e2 s4]; try contradiction.
  - destruct K as (-> & <- & K). split; auto. split; auto. unfold log_of in *. rewrite K, H, events_app, app_assoc. reflexivity.
  - destruct K as (<- & K). split; auto. unfold log_of in *. rewrite K, H, events_app, app_assoc. reflexivity.
Qed.
Lemma s_on_error {A} (m : V A) d h hd g : same m d -> (forall e, same (h e) hd) -> same (von_error m h g) (on_error d hd).
Proof.
  intros H K s. unfold von_error, on_error. specialize (H s). destruct (m s) as [[[a|e] s1] i1], (d s) as [b s2|e2 s2]; try contradiction; auto.
  destruct H as (<- & H). specialize (K e s1). destruct (h e s1) as [[[b|e3] s3] i3], (hd s1) as [b2 s4|e4 s4]; try contradiction.
  - destruct K as (_ & <- & K). split; auto. unfold log_of in *. rewrite K, H, events_app, app_assoc. reflexivity.
  - destruct K as (<- & K). split; auto. unfold log_of in *. rewrite K, H, events_app, app_assoc. reflexivity.
Qed.
(** Printing is nothing to the other model. *)
Definition mute (m : V unit) : Prop := forall s, exists i, m s = (inl tt, s, i) /\ events i = [].
Lemma s_mute {A} (m : V unit) (k : V A) d : mute m -> same k d -> same (vbind m (fun _ => k)) d.
Proof.
  intros H K s. unfold vbind. destruct (H s) as (i & -> & HE). specialize (K s). destruct (k s) as [[[a|e] s1] i1], (d s) as [b s2|e2 s2]; auto.
  - destruct K as (-> & <- & K). split; auto. split; auto. unfold log_of in *. rewrite events_app, HE. exact K.
  - destruct K as (<- & K). split; auto. unfold log_of in *. rewrite events_app, HE. exact K.
Qed.
Lemma s_mute_end (m : V unit) (k : V unit) d : mute m -> same k d -> same (vbind k (fun _ => m)) d.
Proof.
  intros H K s. unfold vbind. specialize (K s). destruct (k s) as [[[a|e] s1] i1], (d s) as [b s2|e2 s2]; auto; try contradiction.
  destruct K as (-> & <- & K). destruct (H s1) as (i & -> & HE). destruct b. split; auto. split; auto. unfold log_of in *. rewrite events_app, HE, app_nil_r. exact K.
Qed.
Lemma s_mute_err {A} (m : V A) d h g : same m d -> (forall e, mute (h e)) -> same (von_error m h g) d.
Proof.
  intros H K s. unfold von_error. specialize (H s). destruct (m s) as [[[a|e] s1] i1], (d s) as [b s2|e2 s2]; try contradiction; auto.
  destruct H as (<- & H). destruct (K e s1) as (i & -> & HE). split; auto. unfold log_of in *. rewrite events_app, HE, app_nil_r. exact H.
Qed.
Lemma s_vop {A} (d : D A) tx : (forall s, match d s with DOk _ s' | DErr _ s' => exists l, d_log s' = d_log s ++ l end) -> same (vop d tx) d.
Proof.
  intros H s. unfold vop. specialize (H s). destruct (d s) as [a s'|e s']; destruct H as (l & H);
    unfold log_of; rewrite events_ev, H, skipn_app, skipn_all, Nat.sub_diag; cbn [skipn app]; auto.
Qed.
Lemma s_veach {A} (f : A -> V unit) g l : (forall x, In x l -> same (f x) (g x)) -> same (veach f l) (each g l).
Proof.
  induction l as [|x l IH]; intros H; cbn [veach each]; [apply s_ret|].
  apply s_bind; [apply H; left; reflexivity|]. intros _. apply IH. intros y Y. apply H. right. exact Y.
Qed.

Section Facts.
Variable E : env.
Variable T : texts.
Variable v : bool.
Lemma m_say t : mute (say v t).
Proof. intros s. unfold say. destruct v; eexists; split; reflexivity. Qed.
Lemma m_Eprintf t : mute (vEprintf t).
Proof. intros s. eexists; split; reflexivity. Qed.
Ltac logs := intros s; repeat match goal with |- context [match ?x with _ => _ end] => lazymatch x with context [match _ with _ => _ end] => fail | _ => destruct x end end;
  cbn; solve [exists []; rewrite app_nil_r; reflexivity | eexists; reflexivity].
Lemma s_open p : same (sys T (os_open E p)) (os_open E p).
Proof. apply s_vop. unfold os_open, tick. logs. Qed.
Lemma s_create p : same (sys T (os_create E p)) (os_create E p).
Proof. apply s_vop. unfold os_create, tick. logs. Qed.
Lemma s_write p t : same (sys T (write_string E p t)) (write_string E p t).
Proof. apply s_vop. unfold write_string, tick. logs. Qed.
Lemma s_close : same (sys T (close_file E)) (close_file E).
Proof. apply s_vop. unfold close_file, tick. logs. Qed.
Lemma s_remove p : same (sys T (os_remove E p)) (os_remove E p).
Proof. apply s_vop. unfold os_remove, tick. logs. Qed.
Lemma s_clang x o : same (sys T (run_clang E x o)) (run_clang E x o).
Proof. apply s_vop. unfold run_clang, tick. logs. Qed.
Lemma s_parse c : same (v_parse_file E T c) (parse_file E c).
Proof.
  intros s. unfold v_parse_file, parse_file, log_of, tick. cbn zeta.
  destruct (match read_fault E (d_tick s) with Some k => _ | None => _ end) as [m u|[| |e]|]; cbn; rewrite ?app_nil_r; auto.
Qed.
Lemma s_check f : same (v_check_input E T f) (check_input E f).
Proof. apply s_vop. unfold check_input, tick. logs. Qed.
Lemma s_single f o : same (v_compileSingleTo E T v f o) (compileSingleTo E f o).
Proof.
  unfold v_compileSingleTo, compileSingleTo. apply s_mute; [apply m_say|].
  apply s_bind; [apply s_mute_err; [apply s_open|intros; apply m_Eprintf]|]. intros c.
  apply s_bind; [apply s_parse|]. intros md.
  apply s_bind; [apply s_mute_err; [apply s_create|intros; apply m_Eprintf]|]. intros _.
  apply s_bind; [apply s_write|]. intros _.
  apply s_mute_end; [apply m_say|apply s_close].
Qed.
Lemma s_ir a : same (v_compileToIR E T v a) (compileToIR E a).
Proof.
  unfold v_compileToIR, compileToIR. apply s_bind.
  - apply s_veach. intros f _. destruct (negb _); [apply s_fail|apply s_ret].
  - intros _. destruct (negb _).
    + destruct (InputFiles a) as [|f [|g l]]; [apply s_fail|apply s_single|apply s_fail].
    + apply s_veach. intros f _. apply s_single.
Qed.
Lemma s_drop_temp a t : same (v_drop_temp E T a t) (drop_temp E a t).
Proof. unfold v_drop_temp, drop_temp. destruct (SaveTemps a); [apply s_ret|apply s_remove]. Qed.
Lemma s_drop_temps a ts : same (v_drop_temps E T a ts) (drop_temps E a ts).
Proof. unfold v_drop_temps, drop_temps. destruct (SaveTemps a); [apply s_ret|]. apply s_veach. intros; apply s_remove. Qed.
Lemma s_run x o h hd w : same h hd -> same (v_run_clang E T v x o h w) (on_error (run_clang E x o) hd).
Proof. intros H. unfold v_run_clang. apply s_mute; [apply m_say|]. apply s_on_error; [apply s_clang|intros; exact H]. Qed.
Lemma s_run0 x o w : same (v_run_clang E T v x o (vret tt) w) (run_clang E x o).
Proof.
  unfold v_run_clang. apply s_mute; [apply m_say|]. apply s_mute_err; [apply s_clang|]. intros e s. exists []. auto.
Qed.
Lemma s_asmOne a f o : same (v_asmOne E T v a f o) (asmOne E a f o).
Proof.
  unfold v_asmOne, asmOne. destruct (HasSuffix f _).
  - cbn zeta. apply s_bind; [apply s_ir|]. intros _. apply s_bind; [apply s_run, s_drop_temp|]. intros _.
    apply s_mute_end; [apply m_say|apply s_drop_temp].
  - apply s_mute_end; [apply m_say|apply s_run0].
Qed.
Lemma s_objOne a f o : same (v_objOne E T v a f o) (objOne E a f o).
Proof.
  unfold v_objOne, objOne. destruct (HasSuffix f _).
  - cbn zeta. apply s_bind; [apply s_ir|]. intros _. apply s_bind; [apply s_run, s_drop_temp|]. intros _.
    apply s_mute_end; [apply m_say|apply s_drop_temp].
  - apply s_mute_end; [apply m_say|apply s_run0].
Qed.
Lemma s_asm a : same (v_compileToAssembly E T v a) (compileToAssembly E a).
Proof.
  unfold v_compileToAssembly, compileToAssembly. apply s_bind.
  - apply s_veach. intros f _. destruct (_ && _); [apply s_fail|apply s_ret].
  - intros _. destruct (negb _).
    + destruct (InputFiles a) as [|f [|g l]]; [apply s_fail|apply s_asmOne|apply s_fail].
    + apply s_veach. intros f _. apply s_asmOne.
Qed.
Lemma s_obj a : same (v_compileToObject E T v a) (compileToObject E a).
Proof.
  unfold v_compileToObject, compileToObject. apply s_bind.
  - apply s_veach. intros f _. destruct (_ && _); [apply s_fail|apply s_ret].
  - intros _. destruct (negb _).
    + destruct (InputFiles a) as [|f [|g l]]; [apply s_fail|apply s_objOne|apply s_fail].
    + apply s_veach. intros f _. apply s_objOne.
Qed.
Lemma s_exe_inputs a l : forall i ts ins, same (v_exe_inputs E T v a i l ts ins) (exe_inputs E a i l ts ins).
Proof.
  induction l as [|f l IH]; intros i ts ins; cbn [v_exe_inputs exe_inputs]; [apply s_ret|].
  destruct (path_eqb _ _).
  - apply s_bind; [apply s_on_error; [apply s_ir|intros; apply s_drop_temps]|]. intros _. apply IH.
  - destruct (_ || _); [apply IH|apply s_fail].
Qed.
Lemma s_exe a : same (v_compileToExecutable E T v a) (compileToExecutable E a).
Proof.
  unfold v_compileToExecutable, compileToExecutable. cbn zeta. set (b := if path_eqb _ _ then _ else _). clearbody b.
  apply s_bind; [apply s_exe_inputs|]. intros (ts, ins). apply s_bind; [apply s_run, s_drop_temps|]. intros _.
  apply s_mute_end; [apply m_say|apply s_drop_temps].
Qed.
Lemma s_Compile a : same (v_Compile E T v a) (Compile E a).
Proof.
  unfold v_Compile, Compile. apply s_mute; [apply m_say|]. destruct (OutType a); [apply s_exe|apply s_obj|apply s_asm|apply s_ir].
Qed.
Lemma main_same fl s : match v_main E T v fl s with (st, s', i) => main E fl s = (st, s') /\ d_log s' = d_log s ++ events i end.
Proof.
  unfold v_main, main. destruct (f_help fl); [cbn; rewrite app_nil_r; auto|]. destruct (f_version fl); [cbn; rewrite app_nil_r; auto|].
  destruct (f_no_args fl); [cbn; rewrite app_nil_r; auto|]. destruct (f_files fl) as [|f l] eqn:EF; [cbn; rewrite app_nil_r; auto|]. rewrite <- EF.
  destruct (opt_level _) as [level|]; [|cbn; rewrite app_nil_r; auto].
  assert (K : same (veach (v_check_input E T) (f_files fl);; v_Compile E T v (options_of E fl level))
    (dbind (each (check_input E) (f_files fl)) (fun _ => Compile E (options_of E fl level)))).
  { apply s_bind; [apply s_veach; intros; apply s_check|]. intros _. apply s_Compile. }
  specialize (K s). revert K. unfold v_status, status.
  destruct ((veach _ _;; _) s) as [[[a|e] s1] i], (dbind _ _ s) as [b s2|e2 s2]; try contradiction.
  - intros (_ & <- & H). auto.
  - intros (<- & H). rewrite events_app. cbn. rewrite app_nil_r. auto.
Qed.
End Facts.
