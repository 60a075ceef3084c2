(** * SimFiles: programs of several files *)
From Coq Require Import List Ascii String ZArith NArith Lia Bool DecimalString.
From Verif Require Import Base Lexer IR Builder Expr Stmt Decl Wp Syntax SpecTree Pure ParseGen Pwp Names InvIR InvDecl Built Msteps InvSym InvInit Static SpecSem IRSem IRDet SpecLink
  SimExpr SimFun Strings PropsExpr LdSrc Files SpecFiles SemShift SimRen.
From Verif Require SpecIR.
Import ListNotations.
Open Scope string_scope.
Open Scope list_scope.
Open Scope Z_scope.

(** ** Function names are no names of string constants *)
Definition FN (fs : list func) : Prop := forall f k, In f fs -> f_name f <> (".str." ++ k)%string.
Lemma FN_mstep a b : mstep a b -> FN (c_mfuncs a) -> FN (c_mfuncs b).
Proof.
  intros M HH; destruct M; cbn; auto; [destruct H as (_ & -> & _); auto|].
  intros f k K. apply in_app_or in K. destruct K as [K|[<-|[]]]; [apply HH; eapply In_remove_named; eauto|apply globalName_str].
Qed.
Lemma FN_msteps a b : msteps a b -> FN (c_mfuncs a) -> FN (c_mfuncs b).
Proof. induction 1; eauto using FN_mstep. Qed.
Definition FK {A} (m : C A) : Prop := forall c, FN (c_mfuncs c) -> pwp m (fun _ c' => FN (c_mfuncs c')) c.
Lemma FK_bind {A B} (m : C A) (f : A -> C B) : pure m -> FK m -> (forall a, FK (f a)) -> FK (bind m f).
Proof. intros P H1 H2 c S. eapply pwp_use; [auto|apply H1; auto|]. cbv beta. intros a c' S'. apply H2. auto. Qed.
Lemma FK_MS {A} (m : C A) : MS m -> FK m.
Proof. intros H c S. eapply pwp_mono; [apply H|]. cbv beta. intros a c' K. eapply FN_msteps; eauto. Qed.
Lemma FK_getOrCreateFunc n : (forall k, n <> (".str." ++ k)%string) -> FK (getOrCreateFunc n).
Proof.
  intros N c S. apply pwp_modify. destruct (find_named _ _ _); cbn; auto. intros f k K. apply in_app_or in K. destruct K as [K|[<-|[]]]; [apply S; auto|apply N].
Qed.
Lemma FK_va_params va l : FK (va_params va l).
Proof. apply FK_MS. induction l; cbn [va_params]; ms_tac. Qed.
Lemma FK_start name params : FK (start_of name params).
Proof.
  intros c S. unfold start_of, DeclareFunction. apply pwp_bind; [pure_tac|]. apply pwp_bind; [auto with pure|]. apply pwp_modify. apply pwp_ret.
  unfold StartFunction. apply pwp_bind; [auto with pure|]. apply pwp_modify. apply pwp_bind; [auto with pure|]. apply pwp_get.
  cbv zeta. cbn [assoc c_fparams newFunc set_functions set_mfuncs set_fparams set_cur set_nreg set_locals set_labels set_builder set_blocks removeFuncByName].
  rewrite String.eqb_refl.
  match goal with |- pwp ?m _ ?c' => set (c1 := c'); assert (K : FK m) end.
  { destruct params as [|p [|q ps]]; [apply FK_MS; ms_tac..|].
    repeat (apply FK_bind; [solve [pure_tac]|first [solve [apply FK_MS; ms_tac]|apply FK_getOrCreateFunc; discriminate|apply FK_va_params]|intros ?]).
    apply FK_MS; ms_tac. }
  apply K. cbn. intros f k Hf. apply in_app_or in Hf. destruct Hf as [Hf|[<-|[]]]; [apply S; eapply In_remove_named; eauto|].
  destruct params; apply globalName_str.
Qed.
Lemma FN_names a b : map f_name b = map f_name a -> FN a -> FN b.
Proof. intros E S f k K. apply (in_map f_name) in K. rewrite E in K. apply in_map_iff in K. destruct K as (g & <- & K). apply S. auto. Qed.
Lemma FK_genD chk d : FK (genD chk d).
Proof.
  intros c S. destruct (is_function d) eqn:F.
  - destruct d as [| |name ps body]; try discriminate. unfold genD. apply pwp_bind; [pure_tac|].
    intros u c' Y.
    apply yields_bind_inv in Y; [|auto with pure]. destruct Y as (f & c1 & Y1 & Y).
    apply yields_bind_inv in Y; [|auto with pure]. destruct Y as ([] & c2 & Y2 & Y).
    apply yields_bind_inv in Y; [|auto with pure]. destruct Y as (sw & c3 & Y3 & Y).
    pose proof (yields_bind _ _ _ _ _ _ _ Y1 Y2) as YS.
    pose proof (FK_start name ps c S _ _ YS) as S2. cbv beta in S2.
    destruct (start_shape name ps c _ _ YS) as (_ & C1).
    pose proof (MS_genS chk body None c2 _ _ Y3) as ST. cbv beta in ST.
    assert (C3 : c_cur c3 = Some (globalName name)) by (rewrite (msteps_cur _ _ ST); auto).
    pose proof (EndFunction_shape _ _ C3 _ _ Y) as E. cbv beta in E.
    apply pwp_clear. eapply FN_names; [|eapply FN_msteps; [exact ST|exact S2]]. cbn. rewrite E. apply store_blocks_names.
  - eapply pwp_mono; [apply (variable_shape chk d c F)|]. cbv beta. intros u c' ->. exact S.
Qed.
Lemma FK_genP chk ds : FK (genP chk ds).
Proof.
  induction ds as [|d ds IH]; [intros c S; cbn [genP]; apply pwp_ret; auto|]. rewrite genP_step. apply FK_bind; auto with pure. apply FK_genD.
Qed.

(** ** What is needed of a file *)
Record good (ds : list decl) (M : module_) : Prop := {
  g_wf : wfP ds;
  g_gen : generate true ds = Ok M tt;
  g_fun : FN (m_funcs M);
  g_hid : Forall hidden (m_globals M);
  g_ops : SpecIR.wf_module M
}.
Lemma module_good ds M : PropsExpr.module_of ds M -> good ds M.
Proof.
  intros MO. destruct (module_of_generate _ _ MO) as [WF GEN]. constructor; auto.
  - apply generate_yields in GEN. destruct GEN as (c & Y & ->). refine (FK_genP true ds _ _ _ _ Y). intros f k [].
  - apply generate_yields in GEN. destruct GEN as (c & Y & ->). refine (HD_genP true ds WF _ _ _ _ Y). constructor.
  - eapply generate_wf; eauto.
Qed.
Lemma own_other i M s : Forall hidden (m_globals M) -> (forall k, s <> (".str." ++ k)%string) -> own i M s = s.
Proof.
  intros H N. unfold own. destruct (existsb _ _) eqn:E; auto. exfalso. apply existsb_exists in E. destruct E as (g & K & E).
  apply andb_prop in E. destruct E as [E1 E2]. apply String.eqb_eq in E2. rewrite Forall_forall in H. specialize (H g K). unfold hidden in H. rewrite E1 in H.
  destruct H as [k H]. apply (N k). congruence.
Qed.
Lemma own_private i M g : In g (m_globals M) -> g_private g = true -> own i M (g_name g) = (dec (Z.of_nat i) ++ g_name g)%string.
Proof.
  intros K E. unfold own. replace (existsb _ _) with true; auto. symmetry. apply existsb_exists. exists g. rewrite E, String.eqb_refl. auto.
Qed.
Lemma dec_some z : dec z <> ""%string.
Proof. unfold dec, NilZero.string_of_int. destruct (Z.to_int z) as [u|u]; [|discriminate]. destruct u; discriminate. Qed.
Lemma dec_first i s k : (dec (Z.of_nat i) ++ s)%string <> (".str." ++ k)%string.
Proof.
  pose proof (nodot_dec (Z.of_nat i)) as N. pose proof (dec_some (Z.of_nat i)) as E. unfold nodot in N. destruct (dec (Z.of_nat i)) as [|a t]; [congruence|].
  cbn [String.append]. intros X. injection X as -> _. apply N. left. reflexivity.
Qed.
Lemma own_result i M s k : Forall hidden (m_globals M) -> In s (map g_name (m_globals M)) -> own i M s <> (".str." ++ k)%string.
Proof.
  intros H K. apply in_map_iff in K. destruct K as (g & <- & K). unfold own. destruct (existsb _ _) eqn:E; [apply dec_first|].
  rewrite Forall_forall in H. pose proof (H g K) as HG. unfold hidden in HG. destruct (g_private g) eqn:P; [|apply HG].
  exfalso. rewrite <- Bool.not_true_iff_false in E. apply E. apply existsb_exists. exists g. rewrite P, String.eqb_refl. auto.
Qed.

(** ** Names that a renaming leaves alone *)
Lemma map_same {A} (f : A -> A) l : (forall x, In x l -> f x = x) -> map f l = l.
Proof. induction l as [|x l IH]; cbn; auto. intros K. rewrite K, IH; auto. Qed.
Lemma ren_inst_same r i : (forall v, In v (SpecIR.operands i) -> ren_value r v = v) -> ren_inst r i = i.
Proof.
  intros K. destruct i; cbn [ren_inst SpecIR.operands] in *; repeat rewrite (K _) by (cbn; auto); auto.
  - rewrite (map_same (ren_value r) args); auto. intros v V. apply K. cbn. auto.
  - rewrite map_same; auto. intros [v b] V. cbn. rewrite K; auto. apply (in_map fst) in V. auto.
Qed.
Lemma ren_term_same r t : (forall v, In v (SpecIR.term_operands t) -> ren_value r v = v) -> ren_term r t = t.
Proof. intros K. destruct t; cbn [ren_term SpecIR.term_operands] in *; repeat rewrite (K _) by (cbn; auto); auto. Qed.
Lemma ren_blocks_same r F : (forall v, In v (SpecIR.all_operands F) -> ren_value r v = v) -> map (ren_block r) F = F.
Proof.
  intros K. apply map_same. intros b B. destruct b as [n is t]. unfold ren_block. cbn.
  assert (K1 : map (ren_inst r) is = is).
  { apply map_same. intros i Hi. apply ren_inst_same. intros v V. apply K. unfold SpecIR.all_operands, SpecIR.all_insts. apply in_or_app. left.
    apply in_flat_map. exists i. split; auto. apply in_flat_map. exists (mkBlock n is t). auto. }
  rewrite K1. destruct t as [t|]; auto. rewrite ren_term_same; auto. intros v V. apply K. unfold SpecIR.all_operands. apply in_or_app. right.
  apply in_flat_map. exists t. split; auto. apply in_flat_map. exists (mkBlock n is (Some t)). split; auto. left. auto.
Qed.
Lemma ren_func_same r f : (forall v, In v (SpecIR.all_operands (f_blocks f)) -> ren_value r v = v) -> ren_func r f = f.
Proof. intros K. unfold ren_func. rewrite ren_blocks_same by auto. destruct f; auto. Qed.
Lemma ren_inst_operands r i : SpecIR.operands (ren_inst r i) = map (ren_value r) (SpecIR.operands i).
Proof. destruct i; cbn; auto. rewrite !map_map. reflexivity. Qed.
Lemma ren_term_operands r t : SpecIR.term_operands (ren_term r t) = map (ren_value r) (SpecIR.term_operands t).
Proof. destruct t; auto. Qed.
Lemma in_ren_operands r F v : In v (SpecIR.all_operands (map (ren_block r) F)) -> exists u, In u (SpecIR.all_operands F) /\ v = ren_value r u.
Proof.
  unfold SpecIR.all_operands, SpecIR.all_insts. intros K. apply in_app_or in K. destruct K as [K|K]; apply in_flat_map in K; destruct K as (x & K1 & K2);
    apply in_flat_map in K1; destruct K1 as (b & K1 & K3); apply in_map_iff in K1; destruct K1 as (b0 & <- & K1).
  - cbn in K3. apply in_map_iff in K3. destruct K3 as (i & <- & K3). rewrite ren_inst_operands in K2. apply in_map_iff in K2. destruct K2 as (u & <- & K2).
    exists u. split; auto. apply in_or_app. left. apply in_flat_map. exists i. split; auto. apply in_flat_map. eauto.
  - unfold SpecIR.block_terms in K3. cbn in K3. destruct (b_term b0) as [t|] eqn:ET; [|contradiction]. destruct K3 as [<-|[]].
    rewrite ren_term_operands in K2. apply in_map_iff in K2. destruct K2 as (u & <- & K2). exists u. split; auto. apply in_or_app. right.
    apply in_flat_map. exists t. split; auto. apply in_flat_map. exists b0. split; auto. unfold SpecIR.block_terms. rewrite ET. left. auto.
Qed.

(** ** The symbols in the code of other files *)
(** No operand is a string constant of another file. *)
Definition foreign (f : func) : Prop := forall v k, In v (SpecIR.all_operands (f_blocks f)) ->
  match v with VGlob n | VFun n _ _ => n <> (".str." ++ k)%string | _ => True end.
Definition goods (fs : files) : Prop := Forall (fun p => good (fst p) (snd p)) fs.
Lemma ren_foreign i ds M f : good ds M -> In f (m_funcs M) -> foreign (ren_func (own i M) f).
Proof.
  intros G Hf v k V. cbn [ren_func f_blocks] in V. apply in_ren_operands in V. destruct V as (u & V & ->).
  pose proof (g_ops _ _ G f Hf) as (_ & _ & O). specialize (O u V). destruct u; cbn in *; auto.
  - apply own_result; auto. apply (g_hid _ _ G).
  - apply in_map_iff in O. destruct O as (h & <- & O). apply (g_fun _ _ G). auto.
Qed.
Lemma joined_foreign fs : goods fs -> forall i f, In f (m_funcs (joined_from i (map snd fs))) -> foreign f.
Proof.
  induction fs as [|[ds M] fs IH]; intros G i f K; [contradiction|]. inversion G; subst. cbn in K. apply in_app_or in K. destruct K as [K|K].
  - apply in_map_iff in K. destruct K as (h & <- & K). eapply ren_foreign; eauto.
  - eapply IH; eauto.
Qed.
Lemma foreign_same i M f : Forall hidden (m_globals M) -> foreign f -> ren_func (own i M) f = f.
Proof.
  intros H F. apply ren_func_same. intros v V. destruct v; cbn; auto. rewrite own_other; auto. intros k. apply (F _ k V).
Qed.
Lemma joined_app A : forall i B, m_funcs (joined_from i (A ++ B)) = (m_funcs (joined_from i A) ++ m_funcs (joined_from (i + List.length A) B))%list.
Proof.
  induction A as [|M A IH]; intros i B; [cbn; rewrite Nat.add_0_r; auto|]. cbn. rewrite IH, <- app_assoc. rewrite <- Nat.add_succ_comm. reflexivity.
Qed.
Lemma joined_globals A : forall i B, m_globals (joined_from i (A ++ B)) = (m_globals (joined_from i A) ++ m_globals (joined_from (i + List.length A) B))%list.
Proof.
  induction A as [|M A IH]; intros i B; [cbn; rewrite Nat.add_0_r; auto|]. cbn. rewrite IH, <- app_assoc. rewrite <- Nat.add_succ_comm. reflexivity.
Qed.
(** The whole code with the names of one file. *)
Definition view (A : files) (M : module_) (B : files) : module_ :=
  mkModule [] (m_funcs (joined_from 0 (map snd A)) ++ m_funcs M ++ m_funcs (joined_from (S (List.length A)) (map snd B))).
Lemma view_ren A ds M B : goods (A ++ (ds, M) :: B) ->
  m_funcs (code_of (A ++ (ds, M) :: B)) = map (ren_func (own (List.length A) M)) (m_funcs (view A M B)).
Proof.
  intros G. unfold goods in G. apply Forall_app in G. destruct G as [GA G]. inversion G as [|? ? GM GB]; subst. cbn [fst snd] in GM.
  unfold code_of, joined. rewrite map_app, joined_app, map_length, Nat.add_0_l. cbn [map snd joined_from m_funcs ren_module view]. rewrite !map_app.
  rewrite (map_same _ (m_funcs (joined_from 0 (map snd A)))), (map_same _ (m_funcs (joined_from (S (List.length A)) (map snd B)))); auto.
  - intros f K. apply foreign_same; [apply (g_hid _ _ GM)|]. exact (joined_foreign B GB _ _ K).
  - intros f K. apply foreign_same; [apply (g_hid _ _ GM)|]. exact (joined_foreign A GA _ _ K).
Qed.
Lemma definition_app g l1 l2 : definition_of g (l1 ++ l2) = match definition_of g l1 with Some f => Some f | None => definition_of g l2 end.
Proof. induction l1 as [|f l1 IH]; cbn; auto. destruct (String.eqb (f_name f) g); auto. destruct (f_blocks f); auto. Qed.
Lemma joined_none x (fs : files) : (forall p, In p fs -> definition_of x (m_funcs (snd p)) = None) -> forall i, definition_of x (m_funcs (joined_from i (map snd fs))) = None.
Proof.
  induction fs as [|p fs IH]; intros K i; [reflexivity|]. cbn. rewrite definition_app, ren_definition, K by (left; auto). cbn. apply IH. intros. apply K. right. auto.
Qed.
Lemma undefined_here ds M x : good ds M -> (forall ps b, ~ In (DFunction x ps b) ds) -> definition_of (globalName x) (m_funcs M) = None.
Proof.
  intros G NA. apply definition_none. intros f Hf E. destruct (generate_from true ds M f (g_gen _ _ G) Hf) as [K|(y & ps & b & c & c1 & c2 & K & _ & EF)]; auto.
  exfalso. assert (EY : globalName y = globalName x) by (rewrite <- E, EF; destruct ps; reflexivity). apply globalName_inj in EY. subst y. exact (NA _ _ K).
Qed.
Lemma joined_names y (fs : files) : forall i, In y (map f_name (m_funcs (joined_from i (map snd fs)))) <-> exists p, In p fs /\ In y (map f_name (m_funcs (snd p))).
Proof.
  induction fs as [|p fs IH]; intros i; cbn; [split; [contradiction|intros (q & [] & _)]|].
  rewrite map_app, map_map, in_app_iff, IH. cbn. split.
  - intros [K|(q & K1 & K2)]; eauto.
  - intros (q & [<-|K] & K2); eauto.
Qed.

(** ** The text of a file in the whole text *)
Lemma literals_app a b : literals (a ++ b) = literals a + literals b.
Proof. induction a as [|d a IH]; [reflexivity|]. cbn [app literals fold_right]. fold (literals a) (literals (a ++ b)). lia. Qed.
Lemma text_split fs : forall bf d af, text_of fs = bf ++ d :: af -> exists A p B bf' af', fs = A ++ p :: B /\ fst p = bf' ++ d :: af' /\ bf = text_of A ++ bf' /\ af = af' ++ text_of B.
Proof.
  induction fs as [|p fs IH]; intros bf d af E; [destruct bf; discriminate|]. unfold text_of in E. cbn [flat_map] in E. fold (text_of fs) in E.
  apply app_eq_app in E. destruct E as (l & [[E1 E2]|[E1 E2]]).
  - destruct l as [|d' l].
    + destruct (IH [] d af) as (A & q & B & bf' & af' & -> & H1 & H2 & H3); [symmetry; exact E2|]. exists (p :: A), q, B, bf', af'. split; auto. split; auto. split; auto.
      rewrite app_nil_r in E1. unfold text_of. cbn [flat_map]. fold (text_of A). rewrite <- app_assoc, <- H2, app_nil_r. congruence.
    + injection E2 as <- ->. exists [], p, fs, bf, l. auto.
  - destruct (IH l d af) as (A & q & B & bf' & af' & -> & H1 & H2 & H3); [auto|]. exists (p :: A), q, B, bf', af'. split; auto. split; auto. split; auto.
    unfold text_of. cbn [flat_map]. fold (text_of A). rewrite <- app_assoc, <- H2. auto.
Qed.
Lemma lits_private ds M k : good ds M -> 0 <= k < literals ds -> exists g, In g (m_globals M) /\ g_private g = true /\ g_name g = (".str." ++ dec k)%string.
Proof.
  intros G K. pose proof (g_gen _ _ G) as Y. apply generate_yields in Y. destruct Y as (cf & Y & ->).
  destruct (str_genP true ds _ _ _ Y) as (p & E1 & _ & _ & N). rewrite app_nil_r in E1. subst p.
  assert (L : Z.of_nat (List.length (textsP ds)) = literals ds).
  { clear. induction ds as [|d ds IH]; [reflexivity|]. unfold textsP. cbn [flat_map literals fold_right]. fold (textsP ds) (literals ds). rewrite app_length. pose proof (litsD_texts d). lia. }
  destruct (nth_error (textsP ds) (Z.to_nat k)) as [s|] eqn:E; [|apply nth_error_None in E; lia].
  apply N in E. cbn [c_stringID NewCompiler] in E. rewrite Z.add_0_l, Z2Nat.id in E by lia. exists (constant k s). auto.
Qed.

(** ** Running the whole program *)
Section Whole.
Context {W : Type}.
Variable H : host W.
Variable I : ihost W.
Variable locals : bool.
Variable fs : files.
Hypothesis TG : together H I fs.
Hypothesis GOOD : goods fs.
Hypothesis SEP : Forall (fun p => separate (snd p)) fs.
Hypothesis REG : Forall (fun p => Forall (regularD locals) (fst p)) fs.
Hypothesis ONCE : once fs.
(** The machine and the host as file number [i] sees them. *)
Definition I_of (i : nat) (M : module_) : ihost W := mkIHost W (i_place I) (fun s => i_sym I (own i M s)) (i_fun I) (i_ext I).
Definition H_of (i : nat) (M : module_) : host W := mkHost W (h_place H) (h_addr H) (fun k => i_sym I (own i M (".str." ++ dec k)%string)) (h_fun H) (h_ext H).
Variables (A B : files) (ds : list decl) (M : module_).
Hypothesis FS : fs = A ++ (ds, M) :: B.
Let i := List.length A.
Lemma good_here : good ds M.
Proof. clear - GOOD FS. unfold goods in GOOD. rewrite FS in GOOD. apply Forall_app in GOOD. destruct GOOD as [_ G]. inversion G; auto. Qed.
Lemma view_ok f : In f (m_funcs (view A M B)) -> okF I (I_of i M) (own i M) (f_blocks f).
Proof.
  pose proof GOOD as G. unfold goods in G. rewrite FS in G. apply Forall_app in G. destruct G as [GA G]. inversion G as [|? ? GM GB]; subst. cbn [fst snd] in GM.
  intros K v V. assert (KF : (forall k, match v with VFun n _ _ => n <> (".str." ++ k)%string | _ => True end)).
  { cbn in K. rewrite !in_app_iff in K. destruct K as [K|[K|K]].
    - intros k. pose proof (joined_foreign A GA _ _ K v k V). destruct v; auto.
    - pose proof (g_ops _ _ GM f K) as (_ & _ & O). specialize (O v V). intros k. destruct v; auto. cbn in O.
      apply in_map_iff in O. destruct O as (h & <- & O). apply (g_fun _ _ GM). auto.
    - intros k. pose proof (joined_foreign B GB _ _ K v k V). destruct v; auto. }
  destruct v; cbn; auto. rewrite own_other; auto. apply (g_hid _ _ GM).
Qed.
Lemma view_code : m_funcs (code_of fs) = map (ren_func (own i M)) (m_funcs (view A M B)).
Proof. rewrite FS. apply (view_ren A ds). rewrite <- FS. exact GOOD. Qed.
Lemma view_icall g args m w x : icall (I_of i M) (view A M B) g args m w x <-> icall I (code_of fs) g args m w x.
Proof. apply (ren_icall I (I_of i M) (own i M)); auto using view_ok, view_code. Qed.
Lemma view_busy n g args m w : busy (I_of i M) (view A M B) n g args m w <-> busy I (code_of fs) n g args m w.
Proof. apply (ren_busy I (I_of i M) (own i M)); auto using view_ok, view_code. Qed.
Lemma view_names y : In y (map f_name (m_funcs (view A M B))) -> In y (map f_name (m_funcs (code_of fs))).
Proof. rewrite view_code, map_map. auto. Qed.
Lemma view_linked : linked (H_of i M) (I_of i M) (view A M B).
Proof.
  pose proof good_here as G. constructor; cbn.
  - apply (tg_place _ _ _ TG).
  - intros x. rewrite own_other; [apply (tg_addr _ _ _ TG)|apply (g_hid _ _ G)|apply globalName_str].
  - auto.
  - apply (tg_fun _ _ _ TG).
  - intros f x Hf E. rewrite own_other; [|apply (g_hid _ _ G)|rewrite E; apply globalName_str].
    assert (K : In (f_name f) (map f_name (m_funcs (code_of fs)))) by (apply view_names; apply in_map; exact Hf).
    apply in_map_iff in K. destruct K as (h & E1 & K). rewrite <- E1. apply (tg_self _ _ _ TG h x); congruence.
  - apply (tg_ext _ _ _ TG).
Qed.
Lemma in_other p x ps b : In p A \/ In p B -> In (DFunction x ps b) ds -> forall ps' b', ~ In (DFunction x ps' b') (fst p).
Proof.
  intros K D ps' b' D'. destruct p as [d' M']. cbn in D'.
  assert (NI : nth_error fs i = Some (ds, M)) by (rewrite FS; unfold i; rewrite nth_error_app2, Nat.sub_diag by auto; reflexivity).
  destruct K as [K|K]; apply In_nth_error in K; destruct K as [j K].
  - assert (L : (j < i)%nat) by (apply nth_error_Some; congruence).
    assert (NJ : nth_error fs j = Some (d', M')) by (rewrite FS, nth_error_app1; auto).
    pose proof (ONCE _ _ _ _ _ _ _ _ _ _ _ NI NJ D D'). lia.
  - assert (NJ : nth_error fs (i + S j) = Some (d', M')).
    { rewrite FS, nth_error_app2 by (unfold i; lia). replace (i + S j - List.length A)%nat with (S j) by (unfold i; lia). exact K. }
    pose proof (ONCE _ _ _ _ _ _ _ _ _ _ _ NI NJ D D'). lia.
Qed.
Lemma others_good p : In p A \/ In p B -> good (fst p) (snd p).
Proof.
  intros K. unfold goods in GOOD. rewrite Forall_forall in GOOD. apply GOOD. rewrite FS. apply in_or_app. destruct K; auto. right. right. auto.
Qed.
Lemma view_definition x ps b : In (DFunction x ps b) ds -> definition_of (globalName x) (m_funcs (view A M B)) = definition_of (globalName x) (m_funcs M).
Proof.
  intros D. cbn [view m_funcs]. rewrite !definition_app.
  assert (NA : definition_of (globalName x) (m_funcs (joined_from 0 (map snd A))) = None).
  { apply joined_none. intros p K. apply (undefined_here (fst p)); [apply others_good; auto|]. apply (in_other p x ps b); auto. }
  assert (NB : definition_of (globalName x) (m_funcs (joined_from (S (List.length A)) (map snd B))) = None).
  { apply joined_none. intros p K. apply (undefined_here (fst p)); [apply others_good; auto|]. apply (in_other p x ps b); auto. }
  rewrite NA, NB. destruct (definition_of (globalName x) (m_funcs M)); reflexivity.
Qed.
(** A call of a function of this file. *)
Lemma file_call n bf x ps body af args m w :
  (forall x args m w, match calls H locals (text_of fs) n x args m w with
  | Val z m' w' => icall I (code_of fs) (globalName x) args m w (XRet z m' w')
  | Halt z w' => icall I (code_of fs) (globalName x) args m w (XExit z w')
  | Stuck => True
  | Limit => busy I (code_of fs) n (globalName x) args m w
  end) ->
  ds = bf ++ DFunction x ps body :: af -> (forall ps' b', ~ In (DFunction x ps' b') af) ->
  match invoke H locals (calls H locals (text_of fs) n) n n ps body (literals (text_of A) + literals bf) args m w with
  | Val z m' w' => icall I (code_of fs) (globalName x) args m w (XRet z m' w')
  | Halt z w' => icall I (code_of fs) (globalName x) args m w (XExit z w')
  | Stuck => True
  | Limit => busy I (code_of fs) (S n) (globalName x) args m w
  end.
Proof.
  intros IH E NA. pose proof good_here as G. pose proof view_linked as LK.
  assert (SM : separate M) by (clear - SEP FS; rewrite FS in SEP; apply Forall_app in SEP; destruct SEP as [_ K]; inversion K; auto).
  assert (RM : Forall (regularD locals) ds) by (clear - REG FS; rewrite FS in REG; apply Forall_app in REG; destruct REG as [_ K]; inversion K; auto).
  pose proof (view_definition x ps body) as VD. specialize (VD ltac:(rewrite E; apply in_or_app; right; left; reflexivity)).
  pose proof (g_gen _ _ G) as Y. apply generate_yields in Y. destruct Y as (cf & Y & EM). rewrite E in Y.
  pose proof (g_wf _ _ G) as WF'. unfold wfP in WF'. rewrite E in WF'. apply Forall_app in WF'. destruct WF' as [W1 W2]. apply Forall_cons_iff in W2. destruct W2 as [W3 W4].
  pose proof RM as R. rewrite E in R. apply Forall_app in R. destruct R as [R1 R2]. apply Forall_cons_iff in R2. destruct R2 as [R3 R4].
  pose proof (DI_genP true _ _ DI_new _ _ Y) as DF. cbv beta in DF.
  apply genP_app in Y. destruct Y as (c & Y1 & Y2). rewrite genP_step in Y2. apply yields_bind_inv in Y2; [|auto with pure].
  destruct Y2 as (u & c' & Y2 & Y3). pose proof (DI_genP true bf _ DI_new _ _ Y1) as D. cbv beta in D.
  pose proof (DI_genD true _ _ D _ _ Y2) as D'. cbv beta in D'.
  destruct (function_end true x ps body c D _ _ Y2) as (c1 & c2 & l & K & EF & F2 & G2 & D2).
  destruct (genP_state (H_of i M) (I_of i M) (view A M B) LK true locals bf _ DI_new W1 R1 _ _ Y1) as (S1 & _). change (c_stringID NewCompiler) with 0 in S1.
  destruct (genP_state (H_of i M) (I_of i M) (view A M B) LK true locals af _ D' W4 R4 _ _ Y3) as (_ & S2 & S3). rewrite G2 in S2. rewrite F2 in S3.
  assert (N : f_name (declared x ps (finished c2)) = globalName x) by (destruct ps; reflexivity).
  assert (LT : 0 <= literals bf).
  { clear. induction bf as [|d bf IH]; [cbn; lia|]. cbn [literals fold_right]. fold (literals bf). pose proof (litsD_texts d). lia. }
  assert (LA : 0 <= literals af).
  { clear. induction af as [|d bf IH]; [cbn; lia|]. cbn [literals fold_right]. fold (literals bf). pose proof (litsD_texts d). lia. }
  assert (LD : literals ds = literals bf + (litsS body + literals af)) by (rewrite E, literals_app; reflexivity).
  assert (SH : equal (invoke (H_of i M) locals (calls H locals (text_of fs) n) n n ps body (literals bf) args) (invoke H locals (calls H locals (text_of fs) n) n n ps body (literals (text_of A) + literals bf) args)).
  { apply (shift_invoke (H_of i M) H locals 0 (literals ds) (literals (text_of A))); auto; try lia; [|intros; apply equal_refl].
    intros k Hk. cbn [h_lit H_of]. destruct (lits_private ds M k G Hk) as (g & P1 & P2 & P3). rewrite <- P3, own_private, P3 by auto.
    rewrite <- (tg_lit _ _ _ TG i ds M k); auto.
    - do 3 f_equal. rewrite FS. unfold i. rewrite firstn_app, firstn_all, Nat.sub_diag. cbn. rewrite app_nil_r. reflexivity.
    - rewrite FS. unfold i. rewrite nth_error_app2, Nat.sub_diag by auto. reflexivity. }
  rewrite <- (SH m w). replace (literals bf) with (c_stringID c) by lia.
  assert (CALL : forall x args m w, match calls H locals (text_of fs) n x args m w with
    | Val z m' w' => icall (I_of i M) (view A M B) (globalName x) args m w (XRet z m' w')
    | Halt z w' => icall (I_of i M) (view A M B) (globalName x) args m w (XExit z w')
    | Stuck => True
    | Limit => busy (I_of i M) (view A M B) n (globalName x) args m w
    end).
  { intros x0 args0 m0 w0. specialize (IH x0 args0 m0 w0). destruct (calls H locals (text_of fs) n x0 args0 m0 w0); auto; [apply view_icall..|apply view_busy]; exact IH. }
  pose proof (invoke_ok (H_of i M) (I_of i M) (view A M B) locals (calls H locals (text_of fs) n) n LK CALL true c x ps body c1 c2 n args m w (le_n n) K) as IO.
  assert (OUT : tgt_ok (I_of i M) (final c2)).
  { split.
    - intros y P Q. apply (SM y); rewrite EM; [apply S2, P|apply S3, Q].
    - intros y P. apply S3 in P. apply in_map_iff in P. destruct P as (f & P1 & P2). rewrite <- P1. eapply (lk_self _ _ _ LK); eauto.
      cbn [view m_funcs]. apply in_or_app. right. apply in_or_app. left. rewrite EM. exact P2. }
  assert (DEF : definition_of (globalName x) (m_funcs (view A M B)) = Some (declared x ps (finished c2))).
  { rewrite VD, EM. apply definition_one; auto.
    - exact (DI_nodup _ _ DF).
    - refine (genP_keeps_fun true af _ x N _ c' D' _ _ _ Y3).
      + intros d Hd. destruct d as [| |n' ps' b']; auto. right. cbn. intros ->. exact (NA _ _ Hd).
      + rewrite EF. apply in_or_app. right. left. reflexivity.
    - destruct (function_ok (H_of i M) (I_of i M) (view A M B) locals (fun _ _ => stuck) 0 LK (fun _ _ _ _ => Logic.I) true c x ps body c1 c2 0 (le_n 0) K) as (_ & _ & _ & BL & _); [apply W3|exact R3|].
      destruct ps; exact BL. }
  specialize (IO ltac:(apply W3) R3 OUT DEF).
  destruct (invoke (H_of i M) locals (calls H locals (text_of fs) n) n n ps body (c_stringID c) args m w); auto; [apply view_icall..|apply view_busy]; exact IO.
Qed.
End Whole.

Theorem files_ok {W} (H : host W) (I : ihost W) locals fs : together H I fs -> goods fs -> Forall (fun p => separate (snd p)) fs ->
  Forall (fun p => Forall (regularD locals) (fst p)) fs -> once fs -> forall n x args m w,
  match calls H locals (text_of fs) n x args m w with
  | Val z m' w' => icall I (code_of fs) (globalName x) args m w (XRet z m' w')
  | Halt z w' => icall I (code_of fs) (globalName x) args m w (XExit z w')
  | Stuck => True
  | Limit => busy I (code_of fs) n (globalName x) args m w
  end.
Proof.
  intros TG GOOD SEP REG ONCE. induction n as [|n IH]; intros x args m w; cbn [calls]; [apply bu_now|].
  destruct (defined 0 (text_of fs) x None) as [[[ps body] k]|] eqn:ED.
  - apply defined_split in ED. destruct ED as [[K _]|(bf & af & E & Ek & NA)]; [discriminate|].
    destruct (text_split fs bf _ af E) as (A & [ds M] & B & bf' & af' & FS & E1 & E2 & E3). cbn [fst] in E1.
    rewrite Ek, E2, Z.add_0_l, literals_app.
    apply (file_call H I locals fs TG GOOD SEP REG ONCE A B ds M FS n bf' x ps body af'); auto.
    intros ps' b' K. apply (NA ps' b'). rewrite E3. apply in_or_app. auto.
  - apply defined_none in ED. destruct ED as [_ NA].
    assert (DN : definition_of (globalName x) (m_funcs (code_of fs)) = None).
    { apply joined_none. intros [ds M] K. cbn [snd]. unfold goods in GOOD. rewrite Forall_forall in GOOD. apply (undefined_here ds); [apply (GOOD _ K)|].
      intros ps b X. apply (NA ps b). unfold text_of. apply in_flat_map. exists (ds, M). auto. }
    destruct (h_ext H x args m w) as [[z m' w'|z w']|] eqn:EX; auto; apply ic_outside; auto; rewrite (tg_ext _ _ _ TG); auto.
Qed.
