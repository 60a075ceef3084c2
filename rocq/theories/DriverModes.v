(** * DriverModes: the driver functions reduced to loops over the inputs *)
From Coq Require Import List Ascii String ZArith NArith Lia Bool.
From Coq Require Import DecimalString DecimalZ.
From Verif Require Import Base IR Decl PropsTotal Driver SpecDriver DriverFacts.
Import ListNotations.
Open Scope Z_scope.

Ltac splits := repeat match goal with |- _ /\ _ => split end.

(** ** Decimal numerals in names *)
Lemma dec_inj a b : dec a = dec b -> a = b.
Proof.
  unfold dec. intros H. apply DecimalZ.to_int_inj.
  assert (N : forall z, Z.to_int z <> Decimal.Pos Decimal.Nil /\ Z.to_int z <> Decimal.Neg Decimal.Nil).
  { intros z. destruct z; cbn; split; try discriminate; intros X; injection X as X;
      revert X; apply DecimalPos.Unsigned.to_uint_nonnil. }
  pose proof (NilZero.isi (Z.to_int a)) as Ia. pose proof (NilZero.isi (Z.to_int b)) as Ib.
  destruct (N a) as [A1 A2], (N b) as [B1 B2]. specialize (Ia A1 A2). specialize (Ib B1 B2).
  rewrite H in Ia. congruence.
Qed.

Lemma uint_no_dot u : ~ In "."%char (list_ascii_of_string (NilEmpty.string_of_uint u)).
Proof. induction u; cbn; intuition discriminate. Qed.

Lemma nzuint_no_dot u : ~ In "."%char (list_ascii_of_string (NilZero.string_of_uint u)).
Proof.
  pose proof (uint_no_dot u) as H. unfold NilZero.string_of_uint.
  destruct u; try exact H. cbn. intuition discriminate.
Qed.

Lemma dec_no_dot z : ~ In "."%char (txt (dec z)).
Proof.
  unfold txt, dec, NilZero.string_of_int. destruct (Z.to_int z) as [u|u].
  - apply nzuint_no_dot.
  - cbn [list_ascii_of_string In]. intros [H|H]; [discriminate|]. revert H. apply nzuint_no_dot.
Qed.

Lemma app_dot_inj : forall (x y a b : path), ~ In "."%char a -> ~ In "."%char b ->
  x ++ "."%char :: a = y ++ "."%char :: b -> x = y /\ a = b.
Proof.
  induction x as [|c x IH]; intros [|d y] a b Ha Hb H; cbn in H.
  - injection H as ->. auto.
  - injection H as H1 H2. subst a. exfalso. apply Ha. apply in_or_app. right. left. reflexivity.
  - injection H as H1 H2. subst b. exfalso. apply Hb. apply in_or_app. right. left. reflexivity.
  - injection H as H1 H. apply IH in H; auto. destruct H. split; congruence.
Qed.

Lemma temp_index (x y : path) i j : x ++ txt ".tmp." ++ txt (dec i) ++ txt ".ll" = y ++ txt ".tmp." ++ txt (dec j) ++ txt ".ll" ->
  x = y /\ i = j.
Proof.
  intros H. rewrite !app_assoc in H. apply app_inv_tail in H.
  change (txt ".tmp.") with (txt ".tmp" ++ txt ".") in H. rewrite !app_assoc in H.
  rewrite <- !(app_assoc (_ ++ txt ".tmp")) in H. cbn [txt list_ascii_of_string app] in H.
  apply app_dot_inj in H; try apply dec_no_dot. destruct H as [H1 H2]. apply app_inv_tail in H1.
  split; auto. apply dec_inj. rewrite <- (string_of_list_ascii_of_string (dec i)), <- (string_of_list_ascii_of_string (dec j)).
  unfold txt in H2. congruence.
Qed.

Lemma new_temps_nodup a : forall l i, (List.length (InputFiles a) = 1 -> List.length l <= 1)%nat -> NoDup (new_temps a i l).
Proof.
  induction l as [|f l IH]; intros i HL; cbn [new_temps].
  - constructor.
  - assert (HL' : (List.length (InputFiles a) = 1 -> List.length l <= 1)%nat) by (intros H; specialize (HL H); cbn in HL; lia).
    destruct (isb f) eqn:B; auto. constructor; auto. intros H. apply new_temps_spec in H.
    destruct H as (j & g & Hj & Bg & HE). revert HE. unfold temp_name.
    destruct (Nat.eqb_spec (List.length (InputFiles a)) 1) as [H1|H1]; cbn [andb].
    + specialize (HL H1). destruct l; [destruct j; discriminate|cbn in HL; lia].
    + intros HE. apply temp_index in HE. lia.
Qed.

(** ** Checks of the extensions *)
Lemma each_check (P : path -> bool) msg l s :
  each (fun f => if P f then dfail msg else dret tt) l s = if existsb P l then DErr msg s else DOk tt s.
Proof.
  induction l as [|f l IH]; auto. rewrite each_cons. cbn [existsb]. destruct (P f); auto.
Qed.

Lemma existsb_neg (P : path -> bool) l : existsb P l = false <-> forall f, In f l -> P f = false.
Proof.
  split.
  - intros H f Hf. destruct (P f) eqn:E; auto. assert (existsb P l = true) by (apply existsb_exists; eauto). congruence.
  - intros H. destruct (existsb P l) eqn:E; auto. apply existsb_exists in E. destruct E as (f & Hf & HP). rewrite H in HP; auto.
Qed.

Lemma each_one (g : path -> D unit) f s : each g [f] s = g f s.
Proof. rewrite each_cons. destruct (g f s) as [[]|]; reflexivity. Qed.

(** An input is accepted by a mode. *)
Definition accepts (m : OutputType) (f : path) : bool :=
  existsb (fun e => path_eqb (Ext f) ("."%char :: e)) (accepted m).

Lemma accepts_named m f : accepts m f = true <-> exists st e, named f st e /\ In e (accepted m).
Proof.
  unfold accepts. rewrite existsb_exists. split.
  - intros (e & He & H). destruct (path_eqb_spec (Ext f) ("."%char :: e)) as [E|]; [|discriminate].
    destruct (Ext_named _ _ E) as [st HN]. eauto.
  - intros (st & e & HN & He). exists e. split; auto. rewrite (named_Ext _ _ _ HN). apply path_eqb_refl.
Qed.

(** The output chosen for an input. *)
Definition on_of (a : CompileOptions) (suf : path) (f : path) : path :=
  if path_eqb (OutputFile a) [] then out_name f suf else OutputFile a.

Section Modes.
Variable E : env.

(** What the three modes without linking do, once the inputs are accepted. *)
Definition bad_o (a : CompileOptions) : bool :=
  negb (path_eqb (OutputFile a) []) && negb (List.length (InputFiles a) =? 1)%nat.

Lemma o_cases a suf (g : path -> path -> D unit) msg s : bad_o a = false ->
  (if negb (path_eqb (OutputFile a) []) then
     match InputFiles a with [f] => g f (OutputFile a) | _ => dfail msg end
   else each (fun f => g f (out_name f suf)) (InputFiles a)) s
  = each (fun f => g f (on_of a suf f)) (InputFiles a) s.
Proof.
  unfold bad_o, on_of. destruct (path_eqb (OutputFile a) []); cbn [negb andb]; auto.
  intros H. destruct (InputFiles a) as [|f [|g' l]]; try discriminate. rewrite each_one. reflexivity.
Qed.

Lemma bad_cases a suf (g : path -> path -> D unit) msg s : bad_o a = true ->
  (if negb (path_eqb (OutputFile a) []) then
     match InputFiles a with [f] => g f (OutputFile a) | _ => dfail msg end
   else each (fun f => g f (out_name f suf)) (InputFiles a)) s = DErr msg s.
Proof.
  unfold bad_o. destruct (path_eqb (OutputFile a) []); cbn [negb andb]; [discriminate|].
  destruct (InputFiles a) as [|f [|g' l]]; try discriminate; reflexivity.
Qed.

Lemma accepts_IR f : accepts OutputIR f = isb f.
Proof. unfold accepts. cbn [accepted existsb]. rewrite isb_Ext. apply orb_false_r. Qed.

Lemma check_neg (m : OutputType) (P : path -> bool) l : (forall f, P f = negb (accepts m f)) ->
  existsb P l = negb (forallb (accepts m) l).
Proof.
  intros H. induction l as [|f l IH]; auto. cbn. rewrite H, IH. destruct (accepts m f); reflexivity.
Qed.

Lemma IR_mode a s : compileToIR E a s =
  if forallb (accepts OutputIR) (InputFiles a) then
    if bad_o a then DErr "multiple input files with -o for IR output are not allowed" s
    else each (fun f => compileSingleTo E f (on_of a (txt ".ll") f)) (InputFiles a) s
  else DErr "does not have .b extension" s.
Proof.
  unfold compileToIR. unfold dbind at 1. rewrite each_check.
  rewrite (check_neg OutputIR) by (intros f; rewrite accepts_IR; reflexivity).
  destruct (forallb (accepts OutputIR) (InputFiles a)); cbn [negb]; auto.
  destruct (bad_o a) eqn:B; [apply bad_cases|apply o_cases]; auto.
Qed.

Lemma asm_mode a s : compileToAssembly E a s =
  if forallb (accepts OutputAssembly) (InputFiles a) then
    if bad_o a then DErr "-o requires exactly one input file" s
    else each (fun f => oneG E asmArgs a f (on_of a (txt ".s") f)) (InputFiles a) s
  else DErr "must have .b or .ll extension" s.
Proof.
  unfold compileToAssembly. unfold dbind at 1. rewrite each_check.
  rewrite (check_neg OutputAssembly).
  2:{ intros f. unfold accepts. cbn [accepted existsb txt list_ascii_of_string].
      destruct (path_eqb (Ext f) _); cbn; auto. destruct (path_eqb (Ext f) _); auto. }
  destruct (forallb (accepts OutputAssembly) (InputFiles a)); cbn [negb]; auto.
  destruct (bad_o a) eqn:B; [apply bad_cases|]; auto.
  apply (o_cases a (txt ".s") (oneG E asmArgs a)). auto.
Qed.

Lemma obj_mode a s : compileToObject E a s =
  if forallb (accepts OutputObject) (InputFiles a) then
    if bad_o a then DErr "-o requires exactly one input file" s
    else each (fun f => oneG E objArgs a f (on_of a (txt ".o") f)) (InputFiles a) s
  else DErr "must have .b, .ll or .s extension" s.
Proof.
  unfold compileToObject. unfold dbind at 1. rewrite each_check.
  rewrite (check_neg OutputObject).
  2:{ intros f. unfold accepts. cbn [accepted existsb txt list_ascii_of_string].
      destruct (path_eqb (Ext f) _); cbn; auto. destruct (path_eqb (Ext f) _); cbn; auto.
      destruct (path_eqb (Ext f) _); auto. }
  destruct (forallb (accepts OutputObject) (InputFiles a)); cbn [negb]; auto.
  destruct (bad_o a) eqn:B; [apply bad_cases|]; auto.
  apply (o_cases a (txt ".o") (oneG E objArgs a)). auto.
Qed.

(** The options after the default output name has been filled in. *)
Definition with_output (a0 : CompileOptions) : CompileOptions :=
  if path_eqb (OutputFile a0) [] then
    mkOpts (out_name (hd [] (InputFiles a0)) []) (InputFiles a0) (SaveTemps a0)
           (OutType a0) (Optimize a0) (DebugInfo a0) (LibraryDirs a0) (Libraries a0)
  else a0.

Lemma with_output_fields a : InputFiles (with_output a) = InputFiles a /\ SaveTemps (with_output a) = SaveTemps a
  /\ Optimize (with_output a) = Optimize a /\ DebugInfo (with_output a) = DebugInfo a
  /\ LibraryDirs (with_output a) = LibraryDirs a /\ Libraries (with_output a) = Libraries a
  /\ OutputFile (with_output a) = on_of a [] (hd [] (InputFiles a)).
Proof. unfold with_output, on_of. destruct (path_eqb (OutputFile a) []); cbn; auto 10. Qed.

(** The check of the inputs in main. *)
Lemma check_input_spec f s : exists s', check_input E f s = (if accepts OutputExecutable f then
    match d_fs s f with
    | Some _ => if stat_fault E (d_tick s) then DErr "cannot access" s' else DOk tt s'
    | None => DErr "cannot access" s'
    end else DErr "unsupported input file extension" s)
  /\ d_fs s' = d_fs s /\ d_log s' = d_log s.
Proof.
  exists (tick s (d_fs s) []). split; [|cbn; rewrite app_nil_r; auto].
  unfold check_input, accepts. cbn [accepted existsb txt list_ascii_of_string].
  rewrite orb_false_r, !orb_assoc. reflexivity.
Qed.

Lemma checks_spec l : forall s,
  match each (check_input E) l s with
  | DOk _ s' => d_fs s' = d_fs s /\ d_log s' = d_log s
      /\ forall f, In f l -> accepts OutputExecutable f = true /\ d_fs s f <> None
  | DErr _ s' => d_fs s' = d_fs s /\ d_log s' = d_log s
  end.
Proof.
  induction l as [|f l IH]; intros s.
  - cbn. splits; auto.
  - rewrite each_cons. destruct (check_input_spec f s) as (s1 & -> & F & L).
    destruct (accepts OutputExecutable f) eqn:A; auto.
    destruct (d_fs s f) eqn:DF; auto. destruct (stat_fault E (d_tick s)); auto.
    specialize (IH s1). destruct (each (check_input E) l s1) as [u s2|e s2].
    + destruct IH as (F2 & L2 & H). splits; try congruence. intros g [<-|Hg].
      * split; auto. congruence.
      * rewrite <- F. auto.
    + destruct IH. split; congruence.
Qed.

End Modes.
