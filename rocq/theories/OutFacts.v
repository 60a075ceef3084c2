(** * OutFacts: proofs about what the driver prints *)
From Coq Require Import List Ascii String ZArith Lia Bool.
From Verif Require Import Base Lexer IR Decl Driver Cmdline SpecDriver DriverFacts DriverOut SpecOut DriverOutFacts.
Import ListNotations.
Open Scope Z_scope.
Open Scope v_scope.

(** ** Relations between two runs of the driver *)
Section Related.
Variable E : env.
Variable T : texts.
Variables v w : bool.
Variable R : forall A, V A -> V A -> Prop.
Arguments R {A}.
Definition not_run (t : path) : Prop := exists c r, t = c :: r /\ c <> "r"%char.
Hypothesis R_ret : forall A (a : A), R (vret a) (vret a).
Hypothesis R_fail : forall A e, R (@vfail A e) (@vfail A e).
Hypothesis R_bind : forall A B (m n : V A) (k l : A -> V B), R m n -> (forall a, R (k a) (l a)) -> R (vbind m k) (vbind n l).
Hypothesis R_on_error : forall A (m n : V A) h h' g, R m n -> (forall e, R (h e) (h' e)) -> R (von_error m h g) (von_error n h' g).
Hypothesis R_say : forall t, not_run t -> R (say v t) (say w t).
Hypothesis R_Eprintf : forall t, R (vEprintf t) (vEprintf t).
Hypothesis R_open : forall p, R (sys T (os_open E p)) (sys T (os_open E p)).
Hypothesis R_create : forall p, R (sys T (os_create E p)) (sys T (os_create E p)).
Hypothesis R_write : forall p t, R (sys T (write_string E p t)) (sys T (write_string E p t)).
Hypothesis R_close : R (sys T (close_file E)) (sys T (close_file E)).
Hypothesis R_remove : forall p, R (sys T (os_remove E p)) (sys T (os_remove E p)).
Hypothesis R_parse : forall c, R (v_parse_file E T c) (v_parse_file E T c).
Hypothesis R_run : forall x o h h' g, R h h' -> R (v_run_clang E T v x o h g) (v_run_clang E T w x o h' g).

Lemma R_veach {A} (f g : A -> V unit) l : (forall x, In x l -> R (f x) (g x)) -> R (veach f l) (veach g l).
Proof.
  induction l as [|x l IH]; intros H; cbn [veach]; [apply R_ret|].
  apply R_bind; [apply H; left; reflexivity|]. intros _. apply IH. intros y Y. apply H. right. exact Y.
Qed.
Lemma R_line s t : match s with String "r" _ | EmptyString => False | _ => True end -> R (say v (txt s ++ t)) (say w (txt s ++ t)).
Proof.
  intros H. apply R_say. destruct s as [|c s]; [destruct H|]. exists c. eexists. split; [reflexivity|]. intros ->. exact H.
Qed.
Lemma R_single f o : R (v_compileSingleTo E T v f o) (v_compileSingleTo E T w f o).
Proof.
  unfold v_compileSingleTo. apply R_bind; [apply R_line; exact Logic.I|]. intros _.
  apply R_bind; [apply R_on_error; [apply R_open|intros; apply R_Eprintf]|]. intros c.
  apply R_bind; [apply R_parse|]. intros md.
  apply R_bind; [apply R_on_error; [apply R_create|intros; apply R_Eprintf]|]. intros _.
  apply R_bind; [apply R_write|]. intros _. apply R_bind; [apply R_close|]. intros _. apply R_line; exact Logic.I.
Qed.
Lemma R_ir a : R (v_compileToIR E T v a) (v_compileToIR E T w a).
Proof.
  unfold v_compileToIR. apply R_bind.
  - apply R_veach. intros f _. destruct (negb _); [apply R_fail|apply R_ret].
  - intros _. destruct (negb _).
    + destruct (InputFiles a) as [|f [|g l]]; [apply R_fail|apply R_single|apply R_fail].
    + apply R_veach. intros f _. apply R_single.
Qed.
Lemma R_drop_temp a t : R (v_drop_temp E T a t) (v_drop_temp E T a t).
Proof. unfold v_drop_temp. destruct (SaveTemps a); [apply R_ret|apply R_remove]. Qed.
Lemma R_drop_temps a ts : R (v_drop_temps E T a ts) (v_drop_temps E T a ts).
Proof. unfold v_drop_temps. destruct (SaveTemps a); [apply R_ret|]. apply R_veach. intros; apply R_remove. Qed.
Lemma R_asmOne a f o : R (v_asmOne E T v a f o) (v_asmOne E T w a f o).
Proof.
  unfold v_asmOne. destruct (HasSuffix f _).
  - cbn zeta. apply R_bind; [apply R_ir|]. intros _. apply R_bind; [apply R_run, R_drop_temp|]. intros _.
    apply R_bind; [apply R_drop_temp|]. intros _. apply R_line; exact Logic.I.
  - apply R_bind; [apply R_run, R_ret|]. intros _. apply R_line; exact Logic.I.
Qed.
Lemma R_objOne a f o : R (v_objOne E T v a f o) (v_objOne E T w a f o).
Proof.
  unfold v_objOne. destruct (HasSuffix f _).
  - cbn zeta. apply R_bind; [apply R_ir|]. intros _. apply R_bind; [apply R_run, R_drop_temp|]. intros _.
    apply R_bind; [apply R_drop_temp|]. intros _. apply R_line; exact Logic.I.
  - apply R_bind; [apply R_run, R_ret|]. intros _. apply R_line; exact Logic.I.
Qed.
Lemma R_asm a : R (v_compileToAssembly E T v a) (v_compileToAssembly E T w a).
Proof.
  unfold v_compileToAssembly. apply R_bind.
  - apply R_veach. intros f _. destruct (_ && _); [apply R_fail|apply R_ret].
  - intros _. destruct (negb _).
    + destruct (InputFiles a) as [|f [|g l]]; [apply R_fail|apply R_asmOne|apply R_fail].
    + apply R_veach. intros f _. apply R_asmOne.
Qed.
Lemma R_obj a : R (v_compileToObject E T v a) (v_compileToObject E T w a).
Proof.
  unfold v_compileToObject. apply R_bind.
  - apply R_veach. intros f _. destruct (_ && _); [apply R_fail|apply R_ret].
  - intros _. destruct (negb _).
    + destruct (InputFiles a) as [|f [|g l]]; [apply R_fail|apply R_objOne|apply R_fail].
    + apply R_veach. intros f _. apply R_objOne.
Qed.
Lemma R_exe_inputs a l : forall i ts ins, R (v_exe_inputs E T v a i l ts ins) (v_exe_inputs E T w a i l ts ins).
Proof.
  induction l as [|f l IH]; intros i ts ins; cbn [v_exe_inputs]; [apply R_ret|].
  destruct (path_eqb _ _).
  - apply R_bind; [apply R_on_error; [apply R_ir|intros; apply R_drop_temps]|]. intros _. apply IH.
  - destruct (_ || _); [apply IH|apply R_fail].
Qed.
Lemma R_exe a : R (v_compileToExecutable E T v a) (v_compileToExecutable E T w a).
Proof.
  unfold v_compileToExecutable. cbn zeta. set (b := if path_eqb _ _ then _ else _). clearbody b.
  apply R_bind; [apply R_exe_inputs|]. intros (ts, ins). apply R_bind; [apply R_run, R_drop_temps|]. intros _.
  apply R_bind; [apply R_drop_temps|]. intros _. apply R_line; exact Logic.I.
Qed.
Lemma R_Compile a : R (v_Compile E T v a) (v_Compile E T w a).
Proof.
  unfold v_Compile. apply R_bind; [apply R_line; exact Logic.I|]. intros _.
  destruct (OutType a); [apply R_exe|apply R_obj|apply R_asm|apply R_ir].
Qed.
End Related.

(** ** -v or not: the same but for the standard output *)
Lemma no_out_app a b : no_out (a ++ b) = no_out a ++ no_out b.
Proof. induction a as [|[e|t|t] a IH]; cbn; auto; rewrite IH; reflexivity. Qed.
Definition like A (m n : V A) : Prop := forall s,
  match m s, n s with (r1, s1, i1), (r2, s2, i2) => r1 = r2 /\ s1 = s2 /\ no_out i1 = no_out i2 end.
Lemma like_refl A (m : V A) : like A m m.
Proof. intros s. destruct (m s) as [[r s1] i]. auto. Qed.
Lemma like_bind A B (m n : V A) (k l : A -> V B) : like A m n -> (forall a, like B (k a) (l a)) -> like B (vbind m k) (vbind n l).
Proof.
  intros H K s. unfold vbind. specialize (H s). destruct (m s) as [[[a|e] s1] i1], (n s) as [[[b|e2] s2] i2]; destruct H as (H1 & <- & H3); try discriminate; injection H1 as <-.
  - specialize (K a s1). destruct (k a s1) as [[r3 s3] i3], (l a s1) as [[r4 s4] i4]. destruct K as (-> & -> & K). rewrite !no_out_app, H3, K. auto.
  - auto.
Qed.
Lemma like_on_error A (m n : V A) h h' g : like A m n -> (forall e, like unit (h e) (h' e)) -> like A (von_error m h g) (von_error n h' g).
Proof.
  intros H K s. unfold von_error. specialize (H s). destruct (m s) as [[[a|e] s1] i1], (n s) as [[[b|e2] s2] i2]; destruct H as (H1 & <- & H3); try discriminate; injection H1 as <-.
  - auto.
  - specialize (K e s1). destruct (h e s1) as [[r3 s3] i3], (h' e s1) as [[r4 s4] i4]. destruct K as (-> & -> & K). rewrite !no_out_app, H3, K. auto.
Qed.
Lemma like_say v w t : like unit (say v t) (say w t).
Proof. intros s. unfold say. destruct v, w; cbn; auto. Qed.
Lemma like_run E T v w x o h h' g : like unit h h' -> like unit (v_run_clang E T v x o h g) (v_run_clang E T w x o h' g).
Proof. intros H. apply like_bind; [apply like_say|]. intros _. apply like_on_error; [apply like_refl|auto]. Qed.
Lemma like_Compile E T v w a : like unit (v_Compile E T v a) (v_Compile E T w a).
Proof.
  apply R_Compile; intros; try apply like_refl; try apply like_say; auto using like_bind, like_on_error, like_run.
Qed.
Lemma main_like E T v w fl s :
  match v_main E T v fl s, v_main E T w fl s with (st, s1, i), (st', s2, j) => st = st' /\ s1 = s2 /\ no_out i = no_out j end.
Proof.
  unfold v_main. destruct (f_help fl); auto. destruct (f_version fl); auto. destruct (f_no_args fl); auto.
  destruct (f_files fl) as [|f l] eqn:EF; auto. rewrite <- EF. destruct (opt_level _) as [level|]; auto.
  assert (K : like unit (veach (v_check_input E T) (f_files fl);; v_Compile E T v (options_of E fl level))
    (veach (v_check_input E T) (f_files fl);; v_Compile E T w (options_of E fl level))).
  { apply like_bind; [apply like_refl|]. intros _. apply like_Compile. }
  specialize (K s). unfold v_status. destruct ((veach _ _;; _) s) as [[[a|e] s1] i]; destruct ((veach _ _;; _) s) as [[[b|e2] s2] j];
    destruct K as (K1 & -> & K3); try discriminate; auto. injection K1 as <-. rewrite !no_out_app, K3. auto.
Qed.

(** ** Silence without -v *)
Definition hush {A} (m : V A) : Prop := forall s, match m s with (_, _, i) => outs i = [] end.
Lemma hush_ret A (a : A) : hush (vret a). Proof. intros s. reflexivity. Qed.
Lemma hush_fail A e : hush (@vfail A e). Proof. intros s. reflexivity. Qed.
Lemma hush_bind A B (m : V A) (k : A -> V B) : hush m -> (forall a, hush (k a)) -> hush (vbind m k).
Proof.
  intros H K s. unfold vbind. specialize (H s). destruct (m s) as [[[a|e] s1] i1]; auto.
  specialize (K a s1). destruct (k a s1) as [[r3 s3] i3]. rewrite outs_app, H, K. reflexivity.
Qed.
Lemma hush_on_error A (m : V A) h g : hush m -> (forall e, hush (h e)) -> hush (von_error m h g).
Proof.
  intros H K s. unfold von_error. specialize (H s). destruct (m s) as [[[a|e] s1] i1]; auto.
  specialize (K e s1). destruct (h e s1) as [[r3 s3] i3]. rewrite outs_app, H, K. reflexivity.
Qed.
Lemma hush_say t : hush (say false t). Proof. intros s. reflexivity. Qed.
Lemma hush_Eprintf t : hush (vEprintf t). Proof. intros s. reflexivity. Qed.
Lemma hush_vop A (m : D A) tx : hush (vop m tx).
Proof. intros s. unfold vop. destruct (m s); apply outs_ev. Qed.
Lemma hush_parse E T c : hush (v_parse_file E T c).
Proof. intros s. unfold v_parse_file. cbn zeta. destruct (match read_fault E (d_tick s) with Some k => _ | None => _ end) as [m u|[| |e]|]; reflexivity. Qed.
Lemma hush_veach {A} (f : A -> V unit) l : (forall x, hush (f x)) -> hush (veach f l).
Proof. intros H. induction l; cbn [veach]; [apply hush_ret|]. apply hush_bind; auto. Qed.
Lemma hush_drop_temp E T a t : hush (v_drop_temp E T a t).
Proof. unfold v_drop_temp. destruct (SaveTemps a); [apply hush_ret|apply hush_vop]. Qed.
Lemma hush_drop_temps E T a ts : hush (v_drop_temps E T a ts).
Proof. unfold v_drop_temps. destruct (SaveTemps a); [apply hush_ret|]. apply hush_veach. intros; apply hush_vop. Qed.
Lemma quiet_Compile E T a : hush (v_Compile E T false a).
Proof.
  apply (R_Compile E T false false (fun A m _ => hush m)); intros; auto using hush_ret, hush_fail, hush_bind, hush_on_error, hush_say, hush_Eprintf, hush_vop, hush_parse.
  all: try apply hush_vop. unfold v_run_clang. apply hush_bind; [apply hush_say|]. intros _. apply hush_on_error; [apply hush_vop|auto].
Qed.
Lemma main_quiet E T fl s : f_help fl = false -> f_version fl = false -> f_no_args fl = false ->
  match v_main E T false fl s with (_, _, i) => outs i = [] end.
Proof.
  intros H1 H2 H3. unfold v_main. rewrite H1, H2, H3. destruct (f_files fl) as [|f l] eqn:EF; auto. rewrite <- EF. destruct (opt_level _) as [level|]; auto.
  assert (K : hush (veach (v_check_input E T) (f_files fl);; v_Compile E T false (options_of E fl level))).
  { apply hush_bind; [apply hush_veach; intros; apply hush_vop|]. intros _. apply quiet_Compile. }
  specialize (K s). unfold v_status. destruct ((veach _ _;; _) s) as [[[a|e] s1] i]; auto. rewrite outs_app, K. reflexivity.
Qed.

(** ** Commands are announced *)
Lemma join_words x l : join (x :: l) = x ++ words l.
Proof.
  revert x. induction l as [|y l IH]; intros x; [cbn; rewrite app_nil_r; reflexivity|].
  change (join (x :: y :: l)) with (x ++ " "%char :: join (y :: l)). rewrite IH. reflexivity.
Qed.
Section Announced.
Variable E : env.
Variable T : texts.
Inductive ann : list item -> Prop :=
| ann_nil : ann []
| ann_out t l : (forall x, t <> running T x) -> ann l -> ann (TOut t :: l)
| ann_err t l : ann l -> ann (TErr t :: l)
| ann_ev e l : (forall x, e <> EvClang x) -> ann l -> ann (TEv e :: l)
| ann_cmd x l : ann l -> ann (TOut (running T x) :: TEv (EvClang x) :: l).
Lemma ann_app a b : ann a -> ann b -> ann (a ++ b).
Proof. induction 1; intros; cbn [app]; auto using ann. Qed.
Lemma cons_inv {A} (x y : A) a b : x :: a = y :: b -> x = y /\ a = b.
Proof. intros H. split; congruence. Qed.
Lemma ann_announced l : ann l -> announced T l.
Proof.
  intros H. split; intros a x b EQ; revert a EQ; induction H; intros a EQ.
  all: destruct a as [|y a]; cbn [app] in EQ; try discriminate; apply cons_inv in EQ; destruct EQ as [EY EQ].
  - destruct (IHann _ EQ) as (a' & ->). eexists (_ :: a'). reflexivity.
  - destruct (IHann _ EQ) as (a' & ->). eexists (_ :: a'). reflexivity.
  - exfalso. apply (H x). congruence.
  - destruct (IHann _ EQ) as (a' & ->). eexists (_ :: a'). reflexivity.
  - destruct a as [|z a]; cbn [app] in EQ; apply cons_inv in EQ; destruct EQ as [EZ EQ].
    + exists []. assert (x0 = x) as -> by congruence. subst y. reflexivity.
    + destruct (IHann _ EQ) as (a' & ->). eexists (_ :: _ :: a'). reflexivity.
  - exfalso. apply (H x). congruence.
  - eauto.
  - eauto.
  - eauto.
  - subst b. exists x0, l. split; [congruence|reflexivity].
  - destruct a as [|z a]; cbn [app] in EQ; [discriminate|]. apply cons_inv in EQ. destruct EQ as [_ EQ]. eauto.
Qed.
Definition anns {A} (m : V A) : Prop := forall s, match m s with (_, _, i) => ann i end.
Lemma anns_bind A B (m : V A) (k : A -> V B) : anns m -> (forall a, anns (k a)) -> anns (vbind m k).
Proof.
  intros H K s. unfold vbind. specialize (H s). destruct (m s) as [[[a|e] s1] i1]; auto.
  specialize (K a s1). destruct (k a s1) as [[r3 s3] i3]. apply ann_app; auto.
Qed.
Lemma anns_on_error A (m : V A) h g : anns m -> (forall e, anns (h e)) -> anns (von_error m h g).
Proof.
  intros H K s. unfold von_error. specialize (H s). destruct (m s) as [[[a|e] s1] i1]; auto.
  specialize (K e s1). destruct (h e s1) as [[r3 s3] i3]. apply ann_app; auto.
Qed.
Lemma anns_say t : not_run t -> anns (say true t).
Proof.
  intros (c & r & -> & N) s. cbn. apply ann_out; [|constructor]. intros x HX. unfold line, running, says in HX.
  cbn in HX. injection HX as HX _. auto.
Qed.
Ltac ops := intros s; unfold sys, vop, tick; repeat match goal with |- context [match ?x with _ => _ end] => lazymatch x with context [match _ with _ => _ end] => fail | _ => destruct x end end;
  cbn [d_log fst snd]; rewrite ?app_nil_r, ?skipn_all, ?skipn_app, ?skipn_all, ?Nat.sub_diag; cbn; repeat constructor; congruence.
Lemma anns_open p : anns (sys T (os_open E p)).
Proof. unfold os_open. ops. Qed.
Lemma anns_create p : anns (sys T (os_create E p)).
Proof. unfold os_create. ops. Qed.
Lemma anns_write p t : anns (sys T (write_string E p t)).
Proof. unfold write_string. ops. Qed.
Lemma anns_close : anns (sys T (close_file E)).
Proof. unfold close_file. ops. Qed.
Lemma anns_remove p : anns (sys T (os_remove E p)).
Proof. unfold os_remove. ops. Qed.
Lemma anns_check p : anns (v_check_input E T p).
Proof. unfold v_check_input, check_input. ops. Qed.
Lemma anns_parse c : anns (v_parse_file E T c).
Proof. intros s. unfold v_parse_file. cbn zeta. destruct (match read_fault E (d_tick s) with Some k => _ | None => _ end) as [m u|[| |e]|]; constructor. Qed.
Lemma anns_run x o h g : anns h -> anns (v_run_clang E T true x o h g).
Proof.
  intros H s. unfold v_run_clang, vbind. cbn [say vprint]. unfold von_error, sys, vop, run_clang, tick. rewrite join_words.
  change (line (txt "running " ++ t_clang T ++ words x)) with (running T x).
  destruct (clang E (d_tick s) x (d_fs s)) as [c|[c|]]; cbn [d_log];
    rewrite skipn_app, skipn_all, Nat.sub_diag; cbn [skipn app map];
    try (match goal with |- context [h ?z] => specialize (H z); destruct (h z) as [[r3 s3] i3] end);
    cbn [app]; auto using ann.
Qed.
Lemma anns_Compile a : anns (v_Compile E T true a).
Proof.
  apply (R_Compile E T true true (fun A m _ => anns m)); intros; auto using anns_bind, anns_on_error, anns_say, anns_open, anns_create, anns_write, anns_close, anns_remove, anns_parse, anns_run.
  all: intros s; repeat constructor.
Qed.
Lemma anns_veach {A} (f : A -> V unit) l : (forall x, anns (f x)) -> anns (veach f l).
Proof. intros H. induction l; cbn [veach]; [intros s; constructor|]. apply anns_bind; auto. Qed.
Lemma main_ann fl s : f_help fl = false -> f_version fl = false -> f_no_args fl = false ->
  match v_main E T true fl s with (_, _, i) => ann i end.
Proof.
  intros H1 H2 H3. unfold v_main. rewrite H1, H2, H3. destruct (f_files fl) as [|f l] eqn:EF; [repeat constructor|]. rewrite <- EF.
  destruct (opt_level _) as [level|]; [|repeat constructor].
  assert (K : anns (veach (v_check_input E T) (f_files fl);; v_Compile E T true (options_of E fl level))).
  { apply anns_bind; [apply anns_veach, anns_check|]. intros _. apply anns_Compile. }
  specialize (K s). unfold v_status. destruct ((veach _ _;; _) s) as [[[a|e] s1] i]; auto. apply ann_app; [exact K|repeat constructor].
Qed.
End Announced.
