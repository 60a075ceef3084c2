(** * LdSrc: the symbols of a compiled file *)
From Coq Require Import List Ascii String ZArith NArith Lia Bool.
From Verif Require Import Base Lexer IR Builder Expr Stmt Decl Wp Syntax SpecTree SpecStatic Pure ParseGen Pwp Names InvIR InvDecl InvNames Built InvTerm Static Msteps InvSym InvInit
  RenderWf PropsBlocks PropsExpr PropsGlobal Ld SpecLd LdFacts.
Import ListNotations.
Open Scope string_scope.
Open Scope list_scope.
Open Scope Z_scope.

(** String constants are private. *)
Definition hidden (g : gdef) : Prop :=
  if g_private g then exists k, g_name g = (".str." ++ k)%string else forall k, g_name g <> (".str." ++ k)%string.
Definition HD (gs : list gdef) : Prop := Forall hidden gs.
Lemma hidden_name x i : hidden (mkGlob (globalName x) i false).
Proof. intros k. cbn. apply globalName_str. Qed.
Lemma HD_mstep a b : mstep a b -> HD (c_mglobals a) -> HD (c_mglobals b).
Proof.
  intros M HH; destruct M; cbn; auto; [destruct H as (-> & _); auto|..]; (apply Forall_app; split; auto; constructor; auto).
  - eexists. reflexivity.
  - apply hidden_name.
Qed.
Lemma HD_msteps a b : msteps a b -> HD (c_mglobals a) -> HD (c_mglobals b).
Proof. induction 1; eauto using HD_mstep. Qed.
Lemma strings_HD a b : strings_only a b -> HD a -> HD b.
Proof. intros (l & -> & F) H. apply Forall_app. split; auto. eapply Forall_impl; [|exact F]. intros g (k & bs & ->). exists k. reflexivity. Qed.
Lemma data_str x k : (globalName x ++ ".data")%string <> (".str." ++ k)%string.
Proof. unfold globalName. destruct (String.eqb x "main") eqn:E; [apply String.eqb_eq in E; subst x|]; discriminate. Qed.
Lemma objects_HD d ws : Forall hidden (objects d ws).
Proof.
  destruct d as [n vs|n z vs|]; cbn [objects]; cbv zeta; [constructor; auto using hidden_name| |constructor].
  destruct (_ && _); constructor; auto using hidden_name. intros k. apply data_str.
Qed.
Lemma HD_genP chk ds : wfP ds -> forall c, HD (c_mglobals c) -> pwp (genP chk ds) (fun _ c' => HD (c_mglobals c')) c.
Proof.
  intros W. induction W as [|d ds WD W IH]; intros c H; cbn [genP]; [apply pwp_ret; auto|].
  eapply pwp_use; [auto with pure| |cbv beta; intros u c1 H1; apply IH; exact H1].
  destruct (is_function d) eqn:F.
  - destruct d as [| |n ps b]; try discriminate. eapply pwp_mono; [apply function_globals|]. cbv beta.
    intros u c' (c1 & c2 & E1 & _ & [sw Y] & E2 & _). rewrite E2. rewrite <- E1 in H. eapply HD_msteps; [|exact H]. exact (MS_genS chk b None c1 _ _ Y).
  - eapply pwp_mono; [apply variable_globals; auto|]. cbv beta. intros u c' (ws & gs & S & HW & E). rewrite E.
    apply Forall_app. split; [|apply objects_HD]. eapply strings_HD; [exact S|]. apply Forall_remove. exact H.
Qed.
(** The data objects are those of the vectors. *)
Lemma SK_vectors chk ds : wfP ds -> forall data c, NoDup (vector_names ds) -> (forall n, In n (vector_names ds) -> ~ In n data) -> Forall nodot data -> SI data c ->
  pwp (genP chk ds) (fun _ c' => SI (vector_names ds ++ data) c') c.
Proof.
  intros W. induction W as [|d ds HD W IH]; intros data c ND DJ NN S; cbn [genP]; [apply pwp_ret; auto|].
  assert (E : vector_names (d :: ds) = (vector_names [d] ++ vector_names ds)%list) by (cbn; rewrite app_nil_r; reflexivity).
  rewrite E in ND, DJ. rewrite E. eapply pwp_use; [auto with pure|apply (SK_genD chk d data); auto|].
  - intros n z vs -> K. apply (DJ n); auto. left. auto.
  - cbv beta. intros u c1 S1. eapply pwp_mono; [apply (IH (vector_names [d] ++ data)%list); auto|].
    + clear - ND. induction (vector_names [d]) as [|x l IH]; cbn in *; auto. inversion ND; auto.
    + intros n Hn K. apply in_app_or in K. destruct K as [K|K].
      * destruct d as [| n0 z vs|]; cbn in K; try contradiction. destruct K as [<-|[]]. cbn in ND. inversion ND; auto.
      * apply (DJ n); auto. apply in_or_app. auto.
    + apply Forall_app. split; auto. destruct d; cbn; auto. constructor; auto. apply nodot_name. apply HD.
    + cbv beta. intros _ c2. apply SI_more. intros x Hx. rewrite !in_app_iff in *. tauto.
Qed.
(** Names of functions with a definition. *)
Definition fun_names (ds : list decl) : list string := flat_map (fun d => match d with DFunction n _ _ => [n] | _ => [] end) ds.
Lemma in_fun_names ds n : In n (fun_names ds) <-> exists ps b, In (DFunction n ps b) ds.
Proof.
  unfold fun_names. rewrite in_flat_map. split.
  - intros (d & H1 & H2). destruct d; cbn in H2; try contradiction. destruct H2 as [->|[]]. eauto.
  - intros (ps & b & H). eexists. split; [exact H|left; auto].
Qed.
Lemma last_function ds n : In n (fun_names ds) -> exists bf ps b af, ds = bf ++ DFunction n ps b :: af /\ ~ In n (fun_names af).
Proof.
  induction ds as [|d ds IH]; [contradiction|]. intros H. destruct (in_dec string_dec n (fun_names ds)) as [K|K].
  - destruct (IH K) as (bf & ps & b & af & -> & N). exists (d :: bf), ps, b, af. auto.
  - unfold fun_names in H. cbn [flat_map] in H. apply in_app_or in H. destruct H as [H|H]; [|contradiction].
    destruct d as [| |n' ps b]; cbn in H; try contradiction. destruct H as [->|[]]. exists [], ps, b, ds. auto.
Qed.
Lemma genP_step chk d r : genP chk (d :: r) = bind (genD chk d) (fun _ => genP chk r).
Proof. reflexivity. Qed.
Lemma body_defined chk ds M n : wfP ds -> generate chk ds = Ok M tt -> In n (fun_names ds) -> In (globalName n) (map f_name (filter has_body (m_funcs M))).
Proof.
  intros W E HN. destruct (last_function ds n HN) as (bf & ps & b & af & -> & NA). apply generate_yields in E. destruct E as (cf & Y & ->).
  apply genP_app in Y. destruct Y as (c & Y1 & Y2). rewrite genP_step in Y2.
  apply yields_bind_inv in Y2; [|auto with pure].
  destruct Y2 as (u & c' & Y2 & Y3). pose proof (DI_genP chk bf _ DI_new _ _ Y1) as D.
  destruct (function_shape chk n ps b c D _ _ Y2) as (c1 & c2 & l & K & _ & E).
  pose proof (DI_genD chk _ _ D _ _ Y2) as D'. cbv beta in D'.
  assert (N : f_name (declared n ps (finished c2)) = globalName n) by apply declared_name.
  assert (HI : In (declared n ps (finished c2)) (c_mfuncs cf)).
  { refine (genP_keeps_fun chk af _ n N _ c' D' _ _ _ Y3).
    - intros d Hd. destruct d as [| |n' ps' b']; auto. right. cbn. intros ->. apply NA, in_fun_names. eauto.
    - rewrite E. apply in_or_app. right. left. reflexivity. }
  rewrite <- N. apply in_map. apply filter_In. split; [exact HI|].
  assert (WB : wfS b). { apply (wfP_body _ n ps b W). apply in_or_app. right. left. reflexivity. }
  pose proof (NI_entry _ (compiled_NI _ _ _ _ _ _ _ K WB)) as NE. rewrite <- finished_names in NE.
  unfold has_body. rewrite declared_blocks. destruct (finished c2); [discriminate NE|reflexivity].
Qed.
Lemma body_from chk ds M f : generate chk ds = Ok M tt -> In f (m_funcs M) -> has_body f = true -> exists n, In n (fun_names ds) /\ f_name f = globalName n.
Proof.
  intros HG Hf HB. destruct (generate_from _ _ _ _ HG Hf) as [E|(n & ps & b & c & c1 & c2 & HI & HC & ->)].
  - unfold has_body in HB. rewrite E in HB. discriminate.
  - exists n. split; [apply in_fun_names; eauto|apply declared_name].
Qed.
Lemma chkP_vectors ds : forall v v', chkP ds v = Some v' -> forall x, In x (vector_names ds) -> In x (s_globs v').
Proof.
  induction ds as [|d ds IH]; cbn [chkP]; intros v v' E x H; [contradiction|].
  destruct (chkD d v) as [v1|] eqn:X; [|discriminate E]. cbn [opt_bind] in E.
  unfold vector_names in H. cbn [flat_map] in H. apply in_app_or in H. destruct H as [H|H]; [|eapply IH; eauto].
  destruct d; cbn in H; try contradiction. destruct H as [->|[]]. cbn in X. injection X as <-. apply chkP_globs in E. apply E. left. auto.
Qed.
Lemma chkP_sub ds : forall v v', chkP ds v = Some v' -> incl (s_globs v) (s_globs v'). Proof. intros v v' E. apply (chkP_globs _ _ _ E). Qed.

Lemma NoDup_sub {A B} (f : A -> B) p l : NoDup (map f l) -> NoDup (map f (filter p l)).
Proof.
  induction l as [|a l IH]; cbn; auto. inversion 1; subst. destruct (p a); cbn; auto. constructor; auto.
  intros K. apply H2. apply in_map_iff in K. destruct K as (b & E & K). apply filter_In in K. rewrite <- E. apply in_map. apply K.
Qed.
(** A source file, its meaning for the rules of SpecStatic, its module. *)
Definition file_ok (ds : list decl) (v : senv) (M : module_) : Prop :=
  module_of ds M /\ chkP ds empty_env = Some v /\ NoDup (vector_names ds) /\ forall x, In x (s_funs v) -> ~ In x (s_globs v).
Record symbols (ds : list decl) (v : senv) (M : module_) : Prop := {
  sy_once : NoDup (module_defs M);
  sy_kind : forall y, In y (module_defs M) -> (exists x, nodot x /\ y = globalName x /\ (In x (s_globs v) \/ In x (fun_names ds))) \/
    (exists x, nodot x /\ In x (s_globs v) /\ y = (globalName x ++ ".data")%string);
  sy_fun : forall x, In x (fun_names ds) -> In (globalName x) (module_defs M);
  sy_glob : forall x, In x (s_globs v) -> nodot x -> In (globalName x) (module_defs M);
  sy_refs : forall y, In y (module_refs M) -> exists x, nodot x /\ y = globalName x /\ In x (s_funs v)
}.
Lemma file_symbols ds v M : file_ok ds v M -> symbols ds v M.
Proof.
  intros (MO & CK & ND & DJ). destruct (module_of_generate _ _ MO) as [WF GEN].
  assert (SH : Forall shD ds) by (destruct MO as (w & s & _ & T & _); apply (xP_wf _ _ T)).
  pose proof (generate_iff ds WF SH) as G. rewrite CK in G. destruct G as (m' & G1 & GF & GG). rewrite GEN in G1. injection G1 as <-.
  pose proof GEN as GEN'. apply generate_yields in GEN'. destruct GEN' as (c & Y & E). 
  pose proof (SK_vectors true ds WF [] _ ND (fun _ _ K => K) (Forall_nil _) SI_new _ _ Y) as S. cbv beta in S. rewrite app_nil_r in S.
  pose proof (HD_genP true ds WF NewCompiler (Forall_nil _) _ _ Y) as H. cbv beta in H.
  pose proof (DI_nodup _ _ (DI_genP true _ _ DI_new _ _ Y)) as NF.
  destruct S as [SN _ SG SF]. rewrite Forall_forall in SG, SF. unfold gnames, fnames in *.
  assert (EG : m_globals M = c_mglobals c) by (rewrite E; reflexivity). assert (EF : m_funcs M = c_mfuncs c) by (rewrite E; reflexivity). clear E.
  unfold HD in H. rewrite Forall_forall in H. rewrite <- EG in *. rewrite <- EF in *. clear EG EF Y.
  assert (FK : forall x, In x (fun_names ds) -> nodot x /\ In x (s_funs v)).
  { intros x Hx. split.
    - apply in_fun_names in Hx. destruct Hx as (ps & b & Hx). apply nodot_name. apply (wfP_body _ _ _ _ WF Hx).
    - apply GF. pose proof (body_defined _ _ _ _ WF GEN Hx) as K. apply in_map_iff in K. destruct K as (f & K1 & K2). apply filter_In in K2.
      rewrite <- K1. apply in_map. apply K2. }
  assert (GK : forall g, In g (m_globals M) -> g_private g = false ->
    (exists x, nodot x /\ g_name g = globalName x /\ In x (s_globs v)) \/ (exists x, nodot x /\ In x (s_globs v) /\ g_name g = (globalName x ++ ".data")%string)).
  { intros g Hg P. destruct (SG (g_name g) (in_map _ _ _ Hg)) as [(k & _ & N)|[(x & Nx & N)|(x & Hx & N)]].
    - exfalso. pose proof (H g Hg) as F. unfold hidden in F. rewrite P in F. exact (F _ N).
    - left. exists x. split; auto. split; auto. apply GG; auto. rewrite <- N. apply in_map. auto.
    - right. exists x. split; [|split; auto; eapply chkP_vectors; eauto].
      unfold vector_names in Hx. apply in_flat_map in Hx. destruct Hx as (d & Hd & Hx). destruct d; cbn in Hx; try contradiction. destruct Hx as [->|[]].
      unfold wfP in WF. rewrite Forall_forall in WF. apply nodot_name. apply (WF _ Hd). }
  constructor.
  - unfold module_defs. apply NoDup_app_iff. split; [apply NoDup_sub; auto|]. split; [apply NoDup_sub; auto|].
    intros y Hy Ky. apply in_map_iff in Hy, Ky. destruct Hy as (g & <- & Hg), Ky as (f & FE & Hf). apply filter_In in Hg, Hf. destruct Hg as [Hg P], Hf as [Hf B].
    destruct (body_from _ _ _ _ GEN Hf B) as (n & Hn & EN). destruct (FK _ Hn) as [Nn Fn].
    destruct (GK g Hg) as [(x & Nx & Ex & Hx)|(x & Nx & Hx & Ex)]; [destruct (g_private g); auto; discriminate|..].
    + assert (x = n) by (apply globalName_inj; congruence). subst x. exact (DJ n Fn Hx).
    + apply (globalName_data n x Nn). congruence.
  - intros y Hy. unfold module_defs in Hy. apply in_app_or in Hy. destruct Hy as [Hy|Hy]; apply in_map_iff in Hy; destruct Hy as (g & <- & Hg); apply filter_In in Hg; destruct Hg as [Hg P].
    + destruct (GK g Hg) as [(x & Nx & Ex & Hx)|(x & Nx & Hx & Ex)]; [destruct (g_private g); auto; discriminate|left|right]; eauto.
    + destruct (body_from _ _ _ _ GEN Hg P) as (n & Hn & EN). left. exists n. split; [apply FK; auto|]. auto.
  - intros x Hx. unfold module_defs. apply in_or_app. right. eapply body_defined; eauto.
  - intros x Hx Nx. unfold module_defs. apply in_or_app. left. apply GG in Hx; auto. apply in_map_iff in Hx. destruct Hx as (g & Eg & Hg).
    rewrite <- Eg. apply in_map. apply filter_In. split; auto. destruct (g_private g) eqn:P; auto. exfalso.
    pose proof (H g Hg) as F. unfold hidden in F. rewrite P in F. destruct F as [k F]. apply (globalName_str x k). congruence.
  - intros y Hy. unfold module_refs in Hy. apply filter_In in Hy. destruct Hy as [Hy I]. apply in_map_iff in Hy. destruct Hy as (f & <- & Hf).
    apply filter_In in Hf. destruct Hf as [Hf B]. destruct (SF _ (in_map _ _ _ Hf)) as [(x & Nx & Ex)|[Ex|Ex]]; [|rewrite Ex in I; discriminate I..].
    exists x. split; auto. split; auto. apply GF. rewrite <- Ex. apply in_map. auto.
Qed.
