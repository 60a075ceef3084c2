(** * InvSym: how definitions change the globals and functions of the module *)
From Coq Require Import List Ascii String ZArith NArith Lia Bool.
From Verif Require Import Base Lexer IR Builder Expr Stmt Decl Wp Syntax Pure ParseGen Pwp Msteps InvIR InvDecl Built Names Static DriverModes.
Import ListNotations.
Open Scope Z_scope.
Open Scope m_scope.

(** The globals with a given symbol. *)
Definition with_sym (y : string) (l : list gdef) : list gdef := filter (fun g => String.eqb (g_name g) y) l.

Lemma with_sym_app y a b : with_sym y (a ++ b) = (with_sym y a ++ with_sym y b)%list.
Proof. unfold with_sym. apply filter_app. Qed.
Lemma with_sym_one y g : with_sym y [g] = if String.eqb (g_name g) y then [g] else [].
Proof. reflexivity. Qed.
Lemma find_with_sym y l : find_named g_name y l = None <-> with_sym y l = [].
Proof.
  induction l as [|g l IH]; cbn; [tauto|]. destruct (String.eqb (g_name g) y); [split; discriminate|exact IH].
Qed.
Lemma remove_with_sym y z l : with_sym y (remove_named g_name z l) =
  if String.eqb y z then tl (with_sym y l) else with_sym y l.
Proof.
  induction l as [|g l IH]; cbn; [destruct (String.eqb y z); auto|].
  destruct (String.eqb_spec (g_name g) z) as [E|E].
  - destruct (String.eqb_spec y z) as [->|N].
    + rewrite E, String.eqb_refl. reflexivity.
    + destruct (String.eqb_spec (g_name g) y); [congruence|reflexivity].
  - cbn [with_sym filter]. destruct (String.eqb_spec (g_name g) y) as [F|F].
    + destruct (String.eqb_spec y z) as [->|N]; [congruence|]. f_equal. apply IH.
    + apply IH.
Qed.

(** Defined at most once, and definitions are kept. *)
Definition keeps (y : string) (a b : list gdef) : Prop :=
  (List.length (with_sym y a) <= 1 -> List.length (with_sym y b) <= 1)%nat /\
  (forall g, with_sym y a = [g] -> with_sym y b = [g]).
Lemma keeps_refl y a : keeps y a a. Proof. split; auto. Qed.
Lemma keeps_trans y a b c : keeps y a b -> keeps y b c -> keeps y a c.
Proof. intros [] []. split; auto. Qed.
Lemma keeps_other y a g : g_name g <> y -> keeps y a (a ++ [g]).
Proof.
  intros N. unfold keeps. rewrite with_sym_app, with_sym_one. destruct (String.eqb_spec (g_name g) y); [congruence|].
  rewrite app_nil_r. auto.
Qed.
Lemma mstep_keeps x a b : mstep a b -> keeps (globalName x) (c_mglobals a) (c_mglobals b).
Proof.
  intros []; cbn; auto using keeps_refl.
  - destruct H as (-> & _). apply keeps_refl.
  - apply keeps_other. cbn. intros E. apply (globalName_str x (dec (c_stringID a))). auto.
  - unfold keeps. rewrite with_sym_app, with_sym_one. cbn [g_name zero_def].
    unfold findGlobalByName in H. rewrite find_with_sym in H.
    destruct (String.eqb_spec (globalName name) (globalName x)) as [E|E].
    + rewrite <- E, H. split; [auto|discriminate].
    + rewrite app_nil_r. auto.
Qed.
Lemma msteps_keeps x a b : msteps a b -> keeps (globalName x) (c_mglobals a) (c_mglobals b).
Proof. induction 1; eauto using keeps_refl, keeps_trans, mstep_keeps. Qed.

(** String constants stay. *)
Definition strs_kept (a b : list gdef) : Prop := forall k g, In g a -> g_name g = (".str." ++ k)%string -> In g b.
Lemma strs_refl a : strs_kept a a. Proof. intros k g; auto. Qed.
Lemma strs_trans a b c : strs_kept a b -> strs_kept b c -> strs_kept a c. Proof. intros H1 H2 k g H E. eauto. Qed.
Lemma strs_app a l : strs_kept a (a ++ l). Proof. intros k g H _. apply in_or_app. auto. Qed.
Lemma strs_remove a x : strs_kept a (remove_named g_name (globalName x) a).
Proof.
  intros k g H E. induction a as [|h a IH]; cbn in *; [contradiction|].
  destruct (String.eqb_spec (g_name h) (globalName x)) as [F|F]; destruct H as [->|H]; cbn; auto.
  exfalso. apply (globalName_str x k). rewrite <- F. exact E.
Qed.
Lemma mstep_strs a b : mstep a b -> strs_kept (c_mglobals a) (c_mglobals b).
Proof. intros []; cbn; auto using strs_refl, strs_app. destruct H as (-> & _). apply strs_refl. Qed.
Lemma msteps_strs a b : msteps a b -> strs_kept (c_mglobals a) (c_mglobals b).
Proof. induction 1; eauto using strs_refl, strs_trans, mstep_strs. Qed.

(** Starting and ending a function does not touch the globals. *)
Definition sameG {A} (m : C A) : Prop := forall c, pwp m (fun _ c' => c_mglobals c' = c_mglobals c /\ c_stringID c' = c_stringID c) c.
Lemma sameG_bind {A B} (m : C A) (f : A -> C B) : pure m -> sameG m -> (forall a, sameG (f a)) -> sameG (bind m f).
Proof.
  intros P H1 H2 c. eapply pwp_use; [auto|apply H1|]. cbv beta. intros a c' [E1 E2].
  eapply pwp_mono; [apply H2|]. cbv beta. intros b c2 [E3 E4]. split; congruence.
Qed.
Lemma sameG_modify f : (forall c, c_mglobals (f c) = c_mglobals c /\ c_stringID (f c) = c_stringID c) -> sameG (modify f).
Proof. intros H c. apply pwp_modify. auto. Qed.
Lemma sameG_ret {A} (a : A) : sameG (ret a). Proof. intros c. apply pwp_ret. auto. Qed.
Lemma sameG_err {A} e : sameG (@errorf st A e). Proof. intros c. apply pwp_err. Qed.
Lemma sameG_get : sameG get. Proof. intros c. apply pwp_get. auto. Qed.
Lemma sameG_emit i : sameG (emit i). Proof. apply sameG_modify. auto. Qed.
Lemma sameG_setTerm i : sameG (setTerm i). Proof. apply sameG_modify. auto. Qed.
Lemma sameG_emitR i : sameG (emitR i). Proof. intros c. apply pwp_emitR. auto. Qed.
Lemma sameG_bind_local n v : sameG (bind_local n v). Proof. apply sameG_modify. auto. Qed.
Lemma sameG_termIsNil : sameG termIsNil. Proof. intros c. apply pwp_termIsNil. intros. auto. Qed.
Lemma sameG_getOrCreateFunc n : sameG (getOrCreateFunc n).
Proof. apply sameG_modify. intros c. destruct (find_named _ _ _); auto. Qed.
Lemma sameG_NewBlock i : sameG (NewBlock i). Proof. intros c. apply pwp_NewBlock. auto. Qed.
Lemma sameG_nextLabelID : sameG nextLabelID. Proof. intros c. apply pwp_nextLabelID. auto. Qed.
Lemma sameG_SetInsertPoint b : sameG (SetInsertPoint b). Proof. apply sameG_modify. auto. Qed.
Lemma sameG_GetInsertBlock : sameG GetInsertBlock. Proof. intros c. apply pwp_GetInsertBlock. auto. Qed.
Create HintDb sameG.
#[export] Hint Resolve sameG_ret sameG_err sameG_get sameG_emit sameG_setTerm sameG_emitR sameG_bind_local sameG_termIsNil sameG_getOrCreateFunc
  sameG_NewBlock sameG_nextLabelID sameG_SetInsertPoint sameG_GetInsertBlock : sameG.
Ltac sameG_tac :=
  repeat (first
    [ solve [auto with sameG nocore]
    | assumption
    | match goal with H : forall _, _ |- sameG _ => solve [apply H] end
    | apply sameG_bind; [solve [pure_tac]| |intros ?]
    | solve [apply sameG_modify; auto]
    | match goal with
      | |- sameG (let _ := _ in _) => cbv zeta
      | |- sameG (if ?x then _ else _) => destruct x
      | |- sameG (match ?x with _ => _ end) => destruct x
      end ]).
Lemma sameG_va va l : sameG (va_params va l).
Proof. induction l; cbn [va_params]; sameG_tac. Qed.
#[export] Hint Resolve sameG_va : sameG.
Lemma sameG_start n ps : sameG (start_of n ps).
Proof. unfold start_of, DeclareFunction, StartFunction. sameG_tac. Qed.
Lemma sameG_end : sameG EndFunction.
Proof.
  unfold EndFunction. apply sameG_bind; [auto with pure|auto with sameG|]. intros b.
  apply sameG_bind; [destruct b; auto with pure|destruct b; auto with sameG|]. intros u.
  apply sameG_modify. intros c. cbn. destruct (c_cur c); auto.
Qed.
Lemma sameG_clear : sameG ClearTopLevelContext. Proof. unfold ClearTopLevelContext. sameG_tac. Qed.

(** What a function definition does to the globals. *)
Lemma function_globals chk n ps b c : pwp (genD chk (DFunction n ps b)) (fun _ c' =>
  exists c1 c2, c_mglobals c1 = c_mglobals c /\ c_stringID c1 = c_stringID c /\ (exists sw, yields (genS chk b None) c1 sw c2) /\
    c_mglobals c' = c_mglobals c2 /\ c_stringID c' = c_stringID c2) c.
Proof.
  unfold genD. apply pwp_bind; [pure_tac|]. intros u c' Y.
  apply yields_bind_inv in Y; [|auto with pure]. destruct Y as (f & c1 & Y1 & Y).
  apply yields_bind_inv in Y; [|auto with pure]. destruct Y as ([] & c2 & Y2 & Y).
  apply yields_bind_inv in Y; [|auto with pure]. destruct Y as (sw & c3 & Y3 & Y).
  pose proof (yields_bind _ _ _ _ _ _ _ Y1 Y2) as YS. destruct (sameG_start n ps c _ _ YS) as [A1 A2].
  destruct (sameG_end c3 _ _ Y) as [B1 B2]. eapply pwp_mono; [apply sameG_clear|]. cbv beta. intros u2 c4 [D1 D2].
  exists c2, c3. repeat split; auto; try congruence. eauto.
Qed.

(** The initialiser words made for a list of initialisers. *)
Definition word_for (gs : list gdef) (v : ival) (w : cword) : Prop :=
  match v with
  | IvInt z => w = CInt z
  | IvStr s => exists k, w = CAddr (".str." ++ k)%string 1 0 /\
      In (mkGlob (".str." ++ k)%string (GBytes (list_ascii_of_string s ++ [NUL])) true) gs
  end.
Lemma word_for_kept a b v w : strs_kept a b -> word_for a v w -> word_for b v w.
Proof.
  intros K. destruct v; cbn; auto. intros (k & E & H). exists k. split; auto. eapply K; eauto. reflexivity.
Qed.
Definition strings_only (a b : list gdef) : Prop := exists l, b = (a ++ l)%list /\ Forall (fun g => exists k bs, g = mkGlob (".str." ++ k)%string (GBytes bs) true) l.
Lemma ivals_words l : forall c, pwp (genIvals l) (fun ws c' => Forall2 (word_for (c_mglobals c')) l ws /\
  strings_only (c_mglobals c) (c_mglobals c')) c.
Proof.
  induction l as [|v l IH]; intros c; cbn [genIvals].
  - apply pwp_ret. split; [constructor|]. exists []. rewrite app_nil_r. auto.
  - eapply (pwp_use _ _ (fun w c' => word_for (c_mglobals c') v w /\ strings_only (c_mglobals c) (c_mglobals c'))); [auto with pure| |].
    + destruct v; cbn [genIval word_for].
      * apply pwp_ret. split; auto. exists []. rewrite app_nil_r. auto.
      * unfold CreateStringConstant. apply pwp_bind; [pure_tac|]. apply pwp_bind; [auto with pure|]. apply pwp_get. cbv zeta.
        apply pwp_bind; [auto with pure|]. apply pwp_modify. apply pwp_ret. apply pwp_ret. cbn. split.
        -- exists (dec (c_stringID c)). split; auto. apply in_or_app. right. left. reflexivity.
        -- eexists. split; [reflexivity|]. constructor; auto. eexists. eexists. reflexivity.
    + cbv beta. intros w c1 [W (l1 & E1 & F1)]. eapply pwp_use; [auto with pure|apply IH|]. cbv beta.
      intros ws c2 [W2 (l2 & E2 & F2)]. apply pwp_ret. split.
      * constructor; auto. eapply word_for_kept; [|exact W]. rewrite E2. apply strs_app.
      * exists (l1 ++ l2)%list. rewrite E2, E1, app_assoc. split; auto. apply Forall_app. auto.
Qed.
Lemma strings_sym x a b : strings_only a b -> with_sym (globalName x) b = with_sym (globalName x) a.
Proof.
  intros (l & -> & F). rewrite with_sym_app. replace (with_sym (globalName x) l) with (@nil gdef); [apply app_nil_r|].
  induction l as [|g l IH]; auto. inversion F; subst. destruct H1 as (k & bs & E). cbn.
  destruct (String.eqb_spec (g_name g) (globalName x)) as [D|_]; [|apply IH; auto].
  destruct (globalName_str x k). subst g. auto.
Qed.

(** The objects a definition of a variable adds, given its initialiser words. *)
Definition objects (d : decl) (ws : list cword) : list gdef :=
  match d with
  | DGlobal n _ => [mkGlob (globalName n) (match ws with
                     | [] => GWord (CInt 0)
                     | [w] => GWord w
                     | _ => GWords (Z.of_nat (List.length ws)) ws
                     end) false]
  | DVector n z _ =>
      let len := Z.of_nat (List.length ws) in
      let size := if z =? 0 then if (List.length ws =? 0)%nat then 1 else len else z in
      if (List.length ws =? 0)%nat && (1 <? size)
      then [mkGlob (globalName n ++ ".data") (GZeros (u64 size)) false; mkGlob (globalName n) (GWords 1 [CAddr (globalName n ++ ".data") 8 0]) false]
      else [mkGlob (globalName n) (GWords (u64 (wrap64 (size + 1))) (CAddr (globalName n) 8 1 :: vector_words (Z.to_nat size) ws)) false]
  | DFunction _ _ _ => []
  end.
Definition dname (d : decl) : string := match d with DGlobal n _ | DVector n _ _ | DFunction n _ _ => n end.
Definition ivals (d : decl) : list ival := match d with DGlobal _ l | DVector _ _ l => l | DFunction _ _ _ => [] end.

Lemma variable_globals chk d c : is_function d = false -> pwp (genD chk d) (fun _ c' => exists ws gs,
    strings_only (remove_named g_name (globalName (dname d)) (c_mglobals c)) gs /\
    Forall2 (word_for gs) (ivals d) ws /\ c_mglobals c' = (gs ++ objects d ws)%list) c.
Proof.
  destruct d as [n vs|n z vs|]; [| |discriminate]; intros _; unfold genD; cbn [dname ivals].
  - apply pwp_bind; [pure_tac|]. apply pwp_bind; [auto with pure|]. apply pwp_modify.
    eapply pwp_use; [auto with pure|apply ivals_words|]. cbv beta. intros ws c1 [W S].
    destruct ws as [|w [|w2 ws]]; apply pwp_modify; apply pwp_clear;
      match type of W with Forall2 _ _ ?l => exists l end; exists (c_mglobals c1); (split; [exact S|split; [exact W|reflexivity]]).
  - apply pwp_bind; [pure_tac|]. apply pwp_bind; [auto with pure|]. apply pwp_modify.
    eapply pwp_use; [auto with pure|apply ivals_words|]. cbv beta. intros ws c1 [W S].
    unfold DeclareGlobalArray. cbv zeta.
    assert (E : (if ((if z =? 0 then Z.of_nat (List.length ws) else z) =? 0) && (List.length ws =? 0)%nat then 1 else if z =? 0 then Z.of_nat (List.length ws) else z)
      = (if z =? 0 then if (List.length ws =? 0)%nat then 1 else Z.of_nat (List.length ws) else z)).
    { destruct (z =? 0) eqn:EZ; [|rewrite EZ; reflexivity]. destruct ws as [|w ws]; auto; rewrite andb_false_r; auto. }
    rewrite E.
    destruct (_ && (1 <? _)) eqn:B; apply pwp_modify; apply pwp_clear; cbn; exists ws, (c_mglobals c1); (split; [exact S|split; [exact W|]]);
      cbn [objects]; cbv zeta; rewrite B; [rewrite <- app_assoc|]; reflexivity.
Qed.

Lemma Forall2_impl {A B} (P Q : A -> B -> Prop) l k : (forall a b, P a b -> Q a b) -> Forall2 P l k -> Forall2 Q l k.
Proof. intros H. induction 1; constructor; auto. Qed.
(** ** Definitions replace and are kept *)
Lemma globalName_neq x y : x <> y -> globalName x <> globalName y.
Proof. intros N E. apply N, globalName_inj, E. Qed.
Lemma keeps_sym y a b : with_sym y b = with_sym y a -> keeps y a b.
Proof. intros E. unfold keeps. rewrite E. auto. Qed.
Lemma objects_sym d ws x : is_function d = false -> nodot x ->
  with_sym (globalName x) (objects d ws) = if String.eqb (dname d) x then match objects d ws with [g] => [g] | [_; g] => [g] | _ => [] end else [].
Proof.
  intros F N. destruct d as [n vs|n z vs|]; [| |discriminate]; cbn [dname].
  - cbn [objects with_sym filter g_name]. destruct (String.eqb_spec n x) as [->|D]; [rewrite String.eqb_refl; auto|].
    destruct (String.eqb_spec (globalName n) (globalName x)); auto. destruct (globalName_neq _ _ D); auto.
  - assert (K : forall a : gdef, g_name a = (globalName n ++ ".data")%string -> String.eqb (g_name a) (globalName x) = false).
    { intros a E. apply String.eqb_neq. rewrite E. intros E'. apply (globalName_data x n N). auto. }
    cbn [objects]. cbv zeta. destruct (_ && _); cbn [with_sym filter].
    + rewrite K by reflexivity. cbn [g_name]. destruct (String.eqb_spec n x) as [->|D]; [rewrite String.eqb_refl; auto|].
      destruct (String.eqb_spec (globalName n) (globalName x)); auto. destruct (globalName_neq _ _ D); auto.
    + cbn [g_name]. destruct (String.eqb_spec n x) as [->|D]; [rewrite String.eqb_refl; auto|].
      destruct (String.eqb_spec (globalName n) (globalName x)); auto. destruct (globalName_neq _ _ D); auto.
Qed.
(** The object that carries the name. *)
Definition main_object (d : decl) (ws : list cword) : gdef := last (objects d ws) (mkGlob "" (GWord (CInt 0)) false).
Lemma objects_main d ws : is_function d = false ->
  match objects d ws with [g] => [g] | [_; g] => [g] | _ => [] end = [main_object d ws] /\ g_name (main_object d ws) = globalName (dname d).
Proof.
  intros F. destruct d as [n vs|n z vs|]; [| |discriminate]; unfold main_object; cbn [objects]; cbv zeta; [split; reflexivity|].
  destruct (_ && _); split; reflexivity.
Qed.

Lemma genD_other chk d x c : nodot x -> (is_function d = true \/ dname d <> x) ->
  pwp (genD chk d) (fun _ c' => keeps (globalName x) (c_mglobals c) (c_mglobals c')) c.
Proof.
  intros N H. destruct (is_function d) eqn:F.
  - destruct d as [| |n ps b]; try discriminate. eapply pwp_mono; [apply function_globals|]. cbv beta.
    intros u c' (c1 & c2 & E1 & _ & [sw Y] & E2 & _). rewrite E2, <- E1. apply msteps_keeps. exact (MS_genS chk b None c1 _ _ Y).
  - destruct H as [H|H]; [discriminate|]. eapply pwp_mono; [apply variable_globals; auto|]. cbv beta.
    intros u c' (ws & gs & S & _ & E). rewrite E. apply keeps_sym. rewrite with_sym_app, (strings_sym _ _ _ S), remove_with_sym, objects_sym by auto.
    destruct (String.eqb_spec (dname d) x); [congruence|]. destruct (String.eqb_spec (globalName x) (globalName (dname d))) as [E2|_].
    + apply globalName_inj in E2. congruence.
    + apply app_nil_r.
Qed.
Lemma genD_same chk d c : is_function d = false -> nodot (dname d) -> (List.length (with_sym (globalName (dname d)) (c_mglobals c)) <= 1)%nat ->
  pwp (genD chk d) (fun _ c' => exists ws, Forall2 (word_for (c_mglobals c')) (ivals d) ws /\
    with_sym (globalName (dname d)) (c_mglobals c') = [main_object d ws]) c.
Proof.
  intros F N L. eapply pwp_mono; [apply variable_globals; auto|]. cbv beta. intros u c' (ws & gs & S & W & E).
  exists ws. split.
  - rewrite E. eapply Forall2_impl; [|exact W]. intros v w. apply word_for_kept, strs_app.
  - rewrite E, with_sym_app, (strings_sym _ _ _ S), remove_with_sym, objects_sym by auto. rewrite !String.eqb_refl.
    destruct (objects_main d ws F) as [-> _]. destruct (with_sym _ (c_mglobals c)) as [|g [|h l]]; cbn in *; auto. lia.
Qed.
Lemma genD_strs chk d c : pwp (genD chk d) (fun _ c' => strs_kept (c_mglobals c) (c_mglobals c')) c.
Proof.
  destruct (is_function d) eqn:F.
  - destruct d as [| |n ps b]; try discriminate. eapply pwp_mono; [apply function_globals|]. cbv beta.
    intros u c' (c1 & c2 & E1 & _ & [sw Y] & E2 & _). rewrite E2, <- E1. apply msteps_strs. exact (MS_genS chk b None c1 _ _ Y).
  - eapply pwp_mono; [apply variable_globals; auto|]. cbv beta. intros u c' (ws & gs & (l & -> & _) & _ & E). rewrite E, <- app_assoc.
    eapply strs_trans; [apply strs_remove|apply strs_app].
Qed.
Lemma genD_once chk d x c : wfD d -> nodot x -> (List.length (with_sym (globalName x) (c_mglobals c)) <= 1)%nat ->
  pwp (genD chk d) (fun _ c' => (List.length (with_sym (globalName x) (c_mglobals c')) <= 1)%nat) c.
Proof.
  intros W N L. destruct (is_function d) eqn:F; [eapply pwp_mono; [apply (genD_other chk d x); auto|]; cbv beta; intros u c' [K _]; auto|].
  destruct (string_dec (dname d) x) as [<-|D]; [|eapply pwp_mono; [apply (genD_other chk d x); auto|]; cbv beta; intros u c' [K _]; auto].
  eapply pwp_mono; [apply genD_same; auto|]. cbv beta. intros u c' (ws & _ & ->). auto.
Qed.
Lemma genP_once chk ds x : wfP ds -> nodot x -> forall c, (List.length (with_sym (globalName x) (c_mglobals c)) <= 1)%nat ->
  pwp (genP chk ds) (fun _ c' => (List.length (with_sym (globalName x) (c_mglobals c')) <= 1)%nat) c.
Proof.
  intros W N. induction W as [|d ds HD W IH]; intros c L; cbn [genP]; [apply pwp_ret; auto|].
  eapply pwp_use; [auto with pure|apply (genD_once chk d x); auto|]. cbv beta. auto.
Qed.
Lemma genP_other chk ds x : nodot x -> (forall d, In d ds -> is_function d = true \/ dname d <> x) -> forall c,
  pwp (genP chk ds) (fun _ c' => keeps (globalName x) (c_mglobals c) (c_mglobals c')) c.
Proof.
  intros N. induction ds as [|d ds IH]; intros H c; cbn [genP]; [apply pwp_ret, keeps_refl|].
  eapply pwp_use; [auto with pure|apply (genD_other chk d x); auto; apply H; left; auto|]. cbv beta. intros u c1 K.
  eapply pwp_mono; [apply IH; intros; apply H; right; auto|]. cbv beta. intros u2 c2 K2. eapply keeps_trans; eauto.
Qed.
Lemma genP_strs chk ds : forall c, pwp (genP chk ds) (fun _ c' => strs_kept (c_mglobals c) (c_mglobals c')) c.
Proof.
  induction ds as [|d ds IH]; intros c; cbn [genP]; [apply pwp_ret, strs_refl|].
  eapply pwp_use; [auto with pure|apply genD_strs|]. cbv beta. intros u c1 K. eapply pwp_mono; [apply IH|]. cbv beta. intros. eapply strs_trans; eauto.
Qed.
Lemma genP_app chk a b : forall c u c', yields (genP chk (a ++ b)) c u c' -> exists c1, yields (genP chk a) c tt c1 /\ yields (genP chk b) c1 tt c'.
Proof.
  induction a as [|d a IH]; cbn [app genP]; intros c [] c' Y.
  - exists c. split; auto. apply yields_ret.
  - apply yields_bind_inv in Y; [|auto with pure]. destruct Y as ([] & c1 & Y1 & Y2).
    destruct (IH _ _ _ Y2) as (c2 & Y3 & Y4). exists c2. split; auto. eapply yields_bind; eauto.
Qed.

(** ** Functions are kept *)
Lemma genD_keeps_fun chk d f n c : DI [] c -> f_name f = globalName n -> (is_function d = false \/ dname d <> n) -> In f (c_mfuncs c) ->
  pwp (genD chk d) (fun _ c' => In f (c_mfuncs c')) c.
Proof.
  intros HD E H HI. destruct (is_function d) eqn:F.
  - destruct H as [|H]; [discriminate|]. destruct d as [| |n' ps b]; try discriminate. eapply pwp_mono; [apply function_shape; auto|]. cbv beta.
    intros u c' (c1 & c2 & l & _ & _ & ->). apply in_or_app. left. cbn in H.
    revert HI. generalize (c_mfuncs c). induction l0 as [|g l0 IH]; cbn; auto. intros [->|K].
    + rewrite E. destruct (String.eqb_spec (globalName n) (globalName n')) as [X|X]; [|left; auto]. apply globalName_inj in X. congruence.
    + destruct (String.eqb (f_name g) (globalName n')); [auto|right; auto].
  - eapply pwp_mono; [apply variable_shape; auto|]. cbv beta. intros u c' ->. auto.
Qed.
Lemma genP_keeps_fun chk ds f n : f_name f = globalName n -> (forall d, In d ds -> is_function d = false \/ dname d <> n) -> forall c, DI [] c -> In f (c_mfuncs c) ->
  pwp (genP chk ds) (fun _ c' => In f (c_mfuncs c')) c.
Proof.
  intros E. induction ds as [|d ds IH]; intros H c HD HI; cbn [genP]; [apply pwp_ret; auto|].
  eapply pwp_use; [auto with pure|apply pwp_and; [apply (DI_genD chk d); auto|apply (genD_keeps_fun chk d f n); auto; apply H; left; auto]|].
  cbv beta. intros u c1 [D1 I1]. apply IH; auto. intros. apply H. right. auto.
Qed.
Lemma filter_one {A} (nm : A -> string) (f : A) l : NoDup (map nm l) -> In f l -> filter (fun g => String.eqb (nm g) (nm f)) l = [f].
Proof.
  induction l as [|g l IH]; cbn; [contradiction|]. intros ND [->|H]; inversion ND; subst.
  - rewrite String.eqb_refl. f_equal. clear - H1. induction l as [|g l IH]; cbn in *; auto.
    destruct (String.eqb_spec (nm g) (nm f)) as [E|E]; [exfalso; auto|]. apply IH. auto.
  - destruct (String.eqb_spec (nm g) (nm f)) as [E|E]; [|auto]. exfalso. apply H2. rewrite E. apply in_map. auto.
Qed.

(** ** All symbols *)
Definition sym_kind (data : list string) (sid : Z) (y : string) : Prop :=
  (exists k, 0 <= k < sid /\ y = (".str." ++ dec k)%string) \/ (exists x, nodot x /\ y = globalName x) \/
  (exists x, In x data /\ y = (globalName x ++ ".data")%string).
Definition fun_kind (y : string) : Prop := (exists x, nodot x /\ y = globalName x) \/ y = "llvm.va_start"%string \/ y = "llvm.va_end"%string.
Record SI (data : list string) (c : cstate) : Prop := {
  SI_nodup : NoDup (gnames c);
  SI_sid : 0 <= c_stringID c;
  SI_kind : Forall (sym_kind data (c_stringID c)) (gnames c);
  SI_fun : Forall fun_kind (fnames c)
}.
Lemma SI_same data c c' : gnames c' = gnames c -> c_stringID c' = c_stringID c -> fnames c' = fnames c -> SI data c -> SI data c'.
Proof. intros E1 E2 E3 []. constructor; rewrite ?E1, ?E2, ?E3; auto. Qed.
Definition SK {A} data (m : C A) : Prop := forall c, SI data c -> pwp m (fun _ c' => SI data c') c.
Lemma SK_bind {A B} data (m : C A) (f : A -> C B) : pure m -> SK data m -> (forall a, SK data (f a)) -> SK data (bind m f).
Proof. intros P H1 H2 c S. eapply pwp_use; [auto|apply H1; auto|]. cbv beta. intros a c' S'. apply H2. auto. Qed.
Lemma SK_ret {A} data (a : A) : SK data (ret a). Proof. intros c S. apply pwp_ret. auto. Qed.
Lemma SK_err {A} data e : SK data (@errorf st A e). Proof. intros c S. apply pwp_err. Qed.
Lemma SK_get data : SK data get. Proof. intros c S. apply pwp_get. auto. Qed.
Lemma SK_modify data f : (forall c, gnames (f c) = gnames c /\ c_stringID (f c) = c_stringID c /\ fnames (f c) = fnames c) -> SK data (modify f).
Proof. intros H c S. apply pwp_modify. destruct (H c) as (E1 & E2 & E3). eapply SI_same; eauto. Qed.
Ltac skm := apply SK_modify; intros; repeat split; reflexivity.
Lemma SK_emit data i : SK data (emit i). Proof. skm. Qed.
Lemma SK_setTerm data i : SK data (setTerm i). Proof. skm. Qed.
Lemma SK_emitR data i : SK data (emitR i). Proof. intros c S. apply pwp_emitR. revert S. apply SI_same; reflexivity. Qed.
Lemma SK_bind_local data n v : SK data (bind_local n v). Proof. skm. Qed.
Lemma SK_termIsNil data : SK data termIsNil. Proof. intros c S. apply pwp_termIsNil. auto. Qed.
Lemma SK_NewBlock data i : SK data (NewBlock i). Proof. intros c S. apply pwp_NewBlock. revert S. apply SI_same; reflexivity. Qed.
Lemma SK_nextLabelID data : SK data nextLabelID. Proof. intros c S. apply pwp_nextLabelID. revert S. apply SI_same; reflexivity. Qed.
Lemma SK_SetInsertPoint data b : SK data (SetInsertPoint b). Proof. skm. Qed.
Lemma SK_GetInsertBlock data : SK data GetInsertBlock. Proof. intros c S. apply pwp_GetInsertBlock. auto. Qed.
Lemma SI_fun_app data c c' f : gnames c' = gnames c -> c_stringID c' = c_stringID c -> incl (fnames c') (fnames c ++ [f]) -> fun_kind f -> SI data c -> SI data c'.
Proof.
  intros E1 E2 I K []. constructor; rewrite ?E1, ?E2; auto. rewrite Forall_forall in *. intros y Hy. apply I in Hy. apply in_app_or in Hy.
  destruct Hy as [Hy|[<-|[]]]; auto.
Qed.
Lemma SI_fun_sub data c c' : gnames c' = gnames c -> c_stringID c' = c_stringID c -> incl (fnames c') (fnames c) -> SI data c -> SI data c'.
Proof. intros E1 E2 I []. constructor; rewrite ?E1, ?E2; auto. rewrite Forall_forall in *. auto. Qed.
Lemma SK_getOrCreateFunc data n : n = "llvm.va_start"%string \/ n = "llvm.va_end"%string -> SK data (getOrCreateFunc n).
Proof.
  intros H c S. apply pwp_modify. destruct (find_named _ _ _); auto. eapply SI_fun_app; [..|exact S]; try reflexivity.
  - unfold fnames. cbn. rewrite map_app. cbn. intros x Hx; exact Hx.
  - cbn. right. auto.
Qed.
Lemma remove_incl_names {A} (nm : A -> string) n l : incl (map nm (remove_named nm n l)) (map nm l).
Proof. intros y H. apply in_map_iff in H. destruct H as (g & <- & H). apply in_map. eapply In_remove_named; eauto. Qed.
Lemma SK_GetOrDeclare data n : nodot n -> SK data (GetOrDeclareFunction n).
Proof.
  intros N. unfold GetOrDeclareFunction. apply SK_bind; [auto with pure|apply SK_get|]. intros c0.
  destruct (assoc n _); [apply SK_ret|]. destruct (assoc n _); [apply SK_ret|]. cbv zeta.
  apply SK_bind; [auto with pure| |intros; apply SK_ret]. intros c S. apply pwp_modify. eapply SI_fun_app; [..|exact S]; try reflexivity.
  - unfold fnames. cbn. rewrite map_app. apply incl_app; [|apply incl_appr; intros y Hy; exact Hy]. apply incl_appl, remove_incl_names.
  - left. exists n. auto.
Qed.
Lemma SK_string data s : SK data (CreateStringConstant s).
Proof.
  unfold CreateStringConstant. intros c S. apply pwp_bind; [auto with pure|]. apply pwp_get. cbv zeta.
  apply pwp_bind; [auto with pure|]. apply pwp_modify. apply pwp_ret. destruct S. constructor.
  - unfold gnames. cbn. rewrite map_app. apply NoDup_snoc; auto. cbn. intros K.
    rewrite Forall_forall in SI_kind0. destruct (SI_kind0 _ K) as [(k & B & E)|[(x & _ & E)|(x & _ & E)]].
    + injection E as E. apply dec_inj in E. lia.
    + apply (globalName_str x (dec (c_stringID c))). auto.
    + unfold globalName in E. destruct (String.eqb x "main") eqn:X; [apply String.eqb_eq in X; subst x|]; discriminate E.
  - cbn. lia.
  - unfold gnames. cbn. rewrite map_app. apply Forall_app. split.
    + eapply Forall_impl; [|exact SI_kind0]. intros y [(k & B & E)|H]; [left; exists k; split; [lia|auto]|right; auto].
    + constructor; auto. left. exists (c_stringID c). split; [lia|auto].
  - auto.
Qed.
Lemma SK_extern data n : nodot n -> SK data (externName n).
Proof.
  intros N. unfold externName. intros c S. apply pwp_bind; [auto with pure|]. apply pwp_get.
  destruct (findGlobalByName c n) as [g|] eqn:E1; [apply pwp_modify; revert S; apply SI_same; reflexivity|].
  destruct (findFuncByName c n); [apply pwp_err|]. destruct (mem n _); [apply pwp_err|]. cbv zeta. apply pwp_modify.
  destruct S. constructor; auto.
  - unfold gnames. cbn. rewrite map_app. apply NoDup_snoc; auto. cbn. intros K.
    unfold findGlobalByName in E1. apply find_named_none in E1. auto.
  - unfold gnames. cbn. rewrite map_app. apply Forall_app. split; auto. constructor; auto. right. left. exists n. auto.
Qed.
Create HintDb sk.
#[export] Hint Resolve SK_ret SK_err SK_get SK_emit SK_setTerm SK_emitR SK_bind_local SK_termIsNil SK_getOrCreateFunc
  SK_NewBlock SK_nextLabelID SK_SetInsertPoint SK_GetInsertBlock SK_string SK_extern SK_GetOrDeclare : sk.
Ltac sk_tac :=
  repeat (first
    [ solve [auto with sk nocore]
    | assumption
    | match goal with H : forall _, _ |- SK _ _ => solve [apply H; auto] end
    | apply SK_bind; [solve [pure_tac]| |intros ?]
    | solve [apply SK_getOrCreateFunc; auto]
    | solve [skm]
    | match goal with
      | |- SK _ (let _ := _ in _) => cbv zeta
      | |- SK _ (if ?x then _ else _) => destruct x
      | |- SK _ (match ?x with _ => _ end) => destruct x
      end ]).
Lemma SK_GetAddress data n : SK data (GetAddress n). Proof. unfold GetAddress. sk_tac. Qed.
Lemma SK_rval data v b : SK data (rval v b). Proof. unfold rval. sk_tac. Qed.
Lemma SK_cmpz data p a b : SK data (cmpz p a b). Proof. unfold cmpz. sk_tac. Qed.
#[export] Hint Resolve SK_GetAddress SK_rval SK_cmpz : sk.
Lemma SK_applyCop data o a b : SK data (applyCop o a b). Proof. destruct o; cbn [applyCop]; sk_tac. Qed.
Lemma SK_doCall data f a : SK data (doCall f a). Proof. unfold doCall. sk_tac. Qed.
Lemma SK_incDec data o p : SK data (incDec o p). Proof. unfold incDec. sk_tac. Qed.
Lemma SK_brIfOpen data b : SK data (brIfOpen b). Proof. unfold brIfOpen. sk_tac. Qed.
Lemma SK_label data n : SK data (GetOrCreateLabel n). Proof. unfold GetOrCreateLabel. sk_tac. Qed.
Lemma SK_DeclareLocal data n : SK data (DeclareLocal n). Proof. unfold DeclareLocal. sk_tac. Qed.
Lemma SK_DeclareLocalArray data n z : SK data (DeclareLocalArray n z). Proof. unfold DeclareLocalArray. sk_tac. Qed.
#[export] Hint Resolve SK_applyCop SK_doCall SK_incDec SK_brIfOpen SK_label SK_DeclareLocal SK_DeclareLocalArray : sk.
Lemma SK_declareAutos data l : SK data (declareAutos l).
Proof. induction l as [|[n z] l IH]; cbn [declareAutos]; sk_tac. Qed.
Lemma SK_switchCases data id l : SK data (switchCases id l).
Proof. induction l as [|z l IH]; cbn [switchCases]; sk_tac. Qed.
Lemma SK_checkAutos data l : forall seen, SK data (checkAutos seen l).
Proof. induction l as [|[n z] l IH]; intros seen; cbn [checkAutos]; sk_tac. Qed.
Lemma SK_genExtrn data l : Forall nodot l -> SK data (genExtrn l).
Proof. induction 1; cbn [genExtrn]; sk_tac. Qed.
Lemma SK_va data va l : SK data (va_params va l).
Proof. induction l; cbn [va_params]; sk_tac. Qed.
#[export] Hint Resolve SK_declareAutos SK_switchCases SK_checkAutos SK_genExtrn SK_va : sk.
Lemma SK_genVar data q n : nodot n -> SK data (genVar q n). Proof. intros. unfold genVar. sk_tac. Qed.
Lemma SK_genCallee data n : nodot n -> SK data (genCallee n). Proof. intros. unfold genCallee. sk_tac. Qed.
#[export] Hint Resolve SK_genVar SK_genCallee nodot_name : sk.
Lemma SK_gen_all data chk : (forall e, wfE e -> forall q, SK data (gen chk q e)) /\ (forall l, wfEs l -> SK data (genArgs chk l)).
Proof.
  apply expr_exprs_ind; intros; ugen; cbn [wfE wfEs] in *;
    repeat match goal with H : _ /\ _ |- _ => destruct H end;
    repeat match goal with H : ?P -> _, K : ?P |- _ => match type of P with Prop => specialize (H K) end end; sk_tac.
Qed.
Lemma SK_genR data chk e : wfE e -> SK data (genR chk false e).
Proof. intros. unfold genR. apply SK_bind; [auto with pure|apply SK_gen_all; auto|]. intros [v l]. auto with sk. Qed.
#[export] Hint Resolve SK_genR : sk.
Lemma SK_genS_all data chk : (forall s, wfS s -> forall sw, SK data (genS chk s sw)) /\ (forall l, wfL l -> forall sw, SK data (genL chk l sw)).
Proof.
  apply stmt_stmts_ind; intros; ugenS; cbn [wfS wfL] in *;
    repeat match goal with H : _ /\ _ |- _ => destruct H end;
    repeat match goal with H : ?P -> _, K : ?P |- _ => match type of P with Prop => specialize (H K) end end; sk_tac.
  eapply SK_genExtrn, Forall_impl; [|eassumption]. apply nodot_name.
Qed.
Lemma SK_ivals data l : SK data (genIvals l).
Proof.
  induction l as [|v l IH]; cbn [genIvals]; [apply SK_ret|].
  apply SK_bind; [auto with pure|destruct v; cbn [genIval]; sk_tac|]. intros w. sk_tac.
Qed.
Lemma SK_start data n ps : nodot n -> SK data (start_of n ps).
Proof.
  intros N. unfold start_of, DeclareFunction, StartFunction. cbv zeta.
  apply SK_bind; [pure_tac| |].
  - apply SK_bind; [auto with pure| |intros; apply SK_ret]. intros c S. apply pwp_modify.
    eapply (SI_fun_app data c _ (globalName n)); [..|exact S]; try reflexivity; [|left; exists n; auto].
    unfold fnames. cbn. rewrite map_app. apply incl_app; [apply incl_appl, remove_incl_names|]. apply incl_appr. destruct ps; intros y Hy; exact Hy.
  - intros f. sk_tac.
Qed.
Lemma SK_end data : SK data EndFunction.
Proof.
  unfold EndFunction. apply SK_bind; [auto with pure|auto with sk|]. intros b. apply SK_bind; [destruct b; auto with pure|destruct b; auto with sk|]. intros u.
  apply SK_modify. intros c. cbn. destruct (c_cur c); [|repeat split; reflexivity]. repeat split. unfold fnames. cbn. apply store_names.
Qed.
Lemma SK_clear data : SK data ClearTopLevelContext. Proof. unfold ClearTopLevelContext. skm. Qed.
Definition vector_names (ds : list decl) : list string := flat_map (fun d => match d with DVector n _ _ => [n] | _ => [] end) ds.
Lemma SI_more a b c : incl a b -> SI a c -> SI b c.
Proof.
  intros I []. constructor; auto. eapply Forall_impl; [|exact SI_kind0]. intros y [H|[H|(x & H & E)]]; [left|right; left|right; right]; eauto.
Qed.
Lemma Forall_remove {A} (P : A -> Prop) (nm : A -> string) n l : Forall P l -> Forall P (remove_named nm n l).
Proof. intros H. rewrite Forall_forall in *. intros x Hx. apply H. eapply In_remove_named; eauto. Qed.
Lemma data_inj x y : nodot x -> nodot y -> (globalName x ++ ".data")%string = (globalName y ++ ".data")%string -> x = y.
Proof.
  intros N1 N2 E. apply globalName_inj. apply (f_equal list_ascii_of_string) in E.
  rewrite !las_app in E. apply app_inv_tail in E. rewrite <- (string_of_list_ascii_of_string (globalName x)), E. apply string_of_list_ascii_of_string.
Qed.
Lemma SK_genD chk d data c : wfD d -> (forall n z vs, d = DVector n z vs -> ~ In n data) -> Forall nodot data -> SI data c ->
  pwp (genD chk d) (fun _ c' => SI (vector_names [d] ++ data) c') c.
Proof.
  intros W V ND S. destruct (is_function d) eqn:F.
  - destruct d as [| |n ps b]; try discriminate. cbn [vector_names flat_map app]. destruct W as (W1 & W2 & W3).
    unfold genD. apply pwp_bind; [pure_tac|]. intros u c' Y.
    apply yields_bind_inv in Y; [|auto with pure]. destruct Y as (f & c1 & Y1 & Y).
    apply yields_bind_inv in Y; [|auto with pure]. destruct Y as ([] & c2 & Y2 & Y).
    apply yields_bind_inv in Y; [|auto with pure]. destruct Y as (sw & c3 & Y3 & Y).
    pose proof (yields_bind _ _ _ _ _ _ _ Y1 Y2) as YS. pose proof (SK_start data n ps (nodot_name _ W1) c S _ _ YS) as S1. cbv beta in S1.
    pose proof (proj1 (SK_genS_all data chk) b W3 None c2 S1 _ _ Y3) as S2. cbv beta in S2.
    pose proof (SK_end data c3 S2 _ _ Y) as S3. cbv beta in S3. apply SK_clear. auto.
  - assert (N : nodot (dname d)) by (destruct d; [apply nodot_name; apply W..|discriminate]).
    (* the string constants *)
    assert (X : forall (k : list cword -> C unit), (forall ws, pure (k ws)) -> (forall ws c1, SI data c1 -> ~ In (globalName (dname d)) (gnames c1) -> pwp (k ws) (fun _ c' => SI (vector_names [d] ++ data) c') c1) ->
      pwp (modify (removeGlobalByName (dname d)) ;;; ws <- genIvals (ivals d) ;; k ws) (fun _ c' => SI (vector_names [d] ++ data) c') c).
    { intros k Pk K. apply pwp_bind; [auto with pure|]. apply pwp_modify.
      assert (S1 : SI data (removeGlobalByName (dname d) c)).
      { destruct S. constructor; auto; unfold gnames; cbn.
        - destruct (remove_named_nodup g_name (globalName (dname d)) (c_mglobals c) SI_nodup0) as [K0 _]. exact K0.
        - rewrite Forall_forall in *. intros y Hy. apply SI_kind0. unfold gnames. eapply remove_incl_names. exact Hy. }
      assert (N1 : ~ In (globalName (dname d)) (gnames (removeGlobalByName (dname d) c))).
      { unfold gnames. cbn. destruct (remove_named_nodup g_name (globalName (dname d)) (c_mglobals c) (SI_nodup _ _ S)) as [_ K0]. exact K0. }
      eapply pwp_use; [auto with pure|apply pwp_and; [apply (SK_ivals data); exact S1|apply ivals_words]|].
      cbv beta. intros ws c1 [S2 (_ & l & E & F1)]. apply K; auto.
      unfold gnames. rewrite E, map_app. intros Hy. apply in_app_or in Hy. destruct Hy as [Hy|Hy]; [auto|].
      apply in_map_iff in Hy. destruct Hy as (g & E1 & Hg). rewrite Forall_forall in F1. destruct (F1 g Hg) as (k0 & bs0 & E2). subst g.
      apply (globalName_str (dname d) k0). auto. }
    assert (ADD : forall c1 g dt, SI dt c1 -> ~ In (g_name g) (gnames c1) -> sym_kind dt (c_stringID c1) (g_name g) -> SI dt (newGlobalDef g c1)).
    { intros c1 g dt [] NI K. constructor; auto; unfold gnames; cbn; rewrite map_app.
      - apply NoDup_snoc; auto.
      - apply Forall_app. split; auto. constructor; auto. }
    assert (KN : forall dt sid, sym_kind dt sid (globalName (dname d))) by (intros; right; left; exists (dname d); auto).
    assert (ADD2 : forall c1 g dt n, SI dt c1 -> ~ In (g_name g) (gnames c1) -> sym_kind dt (c_stringID c1) (g_name g) -> SI dt (bind_global n g (newGlobalDef g c1))).
    { intros. eapply SI_same; [..|apply ADD; eassumption]; reflexivity. }
    destruct d as [n vs|n z vs|]; [| |discriminate]; unfold genD; cbn [dname ivals] in *.
    + match goal with |- pwp _ ?Q _ => eapply (pwp_use _ _ Q) end; [pure_tac|apply X; [intros; pure_tac|]|intros; apply SK_clear; auto]. intros ws c1 S1 N1.
      destruct ws as [|w [|w2 ws]]; apply pwp_modify; cbv beta; apply ADD2; auto.
    + match goal with |- pwp _ ?Q _ => eapply (pwp_use _ _ Q) end; [pure_tac|apply X; [intros; pure_tac|]|intros; apply SK_clear; auto]. intros ws c1 S1 N1.
      unfold DeclareGlobalArray. cbv zeta. pose proof (SI_kind _ _ S1) as S0. apply (SI_more data (n :: data)) in S1; [|intros y; right; auto].
      destruct (_ && (1 <? _)); apply pwp_modify.
      * assert (D1 : SI (n :: data) (newGlobalDef (mkGlob (globalName n ++ ".data") (GZeros (u64 (if ((if z =? 0 then Z.of_nat (List.length ws) else z) =? 0) && (List.length ws =? 0)%nat then 1 else if z =? 0 then Z.of_nat (List.length ws) else z))) false) c1)).
        { apply ADD; auto.
          - cbn. intros K. rewrite Forall_forall in S0. destruct (S0 _ K) as [(k & _ & E)|[(x & Nx & E)|(x & Hx & E)]].
            + unfold globalName in E. destruct (String.eqb n "main") eqn:EM; [apply String.eqb_eq in EM; subst n|]; discriminate E.
            + apply (globalName_data x n Nx). auto.
            + rewrite Forall_forall in ND. apply data_inj in E; auto. subst x. exact (V _ _ _ eq_refl Hx).
          - right. right. exists n. split; [left|]; auto. }
        apply ADD2; auto.
        unfold gnames. cbn. rewrite map_app. intros K. apply in_app_or in K. destruct K as [K|[K|[]]]; [auto|]. cbn in K. apply (globalName_data n n N). auto.
      * apply ADD2; auto.
Qed.

Lemma SK_genP chk ds : wfP ds -> forall data c, NoDup (vector_names ds) -> (forall n, In n (vector_names ds) -> ~ In n data) -> Forall nodot data -> SI data c ->
  pwp (genP chk ds) (fun _ c' => exists data', SI data' c') c.
Proof.
  intros W. induction W as [|d ds HD W IH]; intros data c ND DJ NN S; cbn [genP]; [apply pwp_ret; eauto|].
  assert (E : vector_names (d :: ds) = (vector_names [d] ++ vector_names ds)%list) by (cbn; rewrite app_nil_r; reflexivity).
  rewrite E in ND, DJ. eapply pwp_use; [auto with pure|apply (SK_genD chk d data); auto|].
  - intros n z vs -> K. apply (DJ n); auto. left. auto.
  - cbv beta. intros u c1 S1. apply (IH (vector_names [d] ++ data)%list); auto.
    + clear - ND. induction (vector_names [d]) as [|x l IH]; cbn in *; auto. inversion ND; auto.
    + intros n Hn K. apply in_app_or in K. destruct K as [K|K].
      * destruct d as [| n0 z vs|]; cbn in K; try contradiction. destruct K as [<-|[]]. cbn in ND. inversion ND; auto.
      * apply (DJ n); auto. apply in_or_app. auto.
    + apply Forall_app. split; auto. destruct d; cbn; auto. constructor; auto. apply nodot_name. apply HD.
Qed.
Lemma SI_new : SI [] NewCompiler.
Proof. constructor; cbn; try constructor. reflexivity. Qed.
