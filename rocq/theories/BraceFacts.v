(** * BraceFacts: the code of a program with other braces *)
From Coq Require Import List Ascii String ZArith NArith Lia Bool.
From Verif Require Import Base Lexer IR Builder Expr Stmt Decl Syntax SpecBrace.
Import ListNotations.
Open Scope Z_scope.
Open Scope m_scope.
Open Scope string_scope.
Open Scope list_scope.

(** The same actions. *)
Definition eqm {A} (m m' : C A) : Prop := forall s, m s = m' s.
Lemma eqm_refl {A} (m : C A) : eqm m m.
Proof. intros s. reflexivity. Qed.
Lemma eqm_bind {A B} (m m' : C A) (k k' : A -> C B) : eqm m m' -> (forall a, eqm (k a) (k' a)) -> eqm (bind m k) (bind m' k').
Proof. intros H K s. unfold bind. rewrite H. destruct (m' s); [apply K|reflexivity..]. Qed.
Lemma eqm_ret {A} (m : C A) : eqm (bind m ret) m.
Proof. intros s. unfold bind. destruct (m s); reflexivity. Qed.

Lemma eqm_assoc {A B D X} (a : C A) (b : A -> C B) (d : A -> C D) (x : C X) {Y} (k : X -> C Y) :
  eqm (bind (bind a (fun v => bind (b v) (fun _ => bind (d v) (fun _ => x)))) k) (bind a (fun v => bind (b v) (fun _ => bind (d v) (fun _ => bind x k)))).
Proof. intros s. unfold bind. destruct (a s) as [v s1| |]; try reflexivity. destruct (b v s1) as [? s2| |]; try reflexivity. destruct (d v s2); reflexivity. Qed.

Section G.
Variable chk : bool.
Local Notation genS := (genS chk).
Local Notation genL := (genL chk).

Ltac go := repeat first [apply eqm_refl | solve [auto] | apply eqm_bind; [|intro] ].
Lemma eqm_andthen l r sw : eqm (bind (genL l sw) (genL r)) (genL (andthen l r) sw).
Proof.
  revert sw. induction l as [|s l IH]; intros sw; [intros s0; reflexivity|]. intros st.
  change (bind (bind (genS s sw) (genL l)) (genL r) st = bind (genS s sw) (genL (andthen l r)) st).
  unfold bind at 1 2 3. destruct (genS s sw st) as [sw1 st1| |]; [exact (IH sw1 st1)|reflexivity..].
Qed.
Lemma eqm_case z s l sw : eqm (genS (SBlock (SCons (SCase z s) l)) sw) (genS (SCase z (SBlock (SCons s l))) sw).
Proof.
  destruct sw as [[id vals]|]; [|intros st; reflexivity].
  exact (eqm_assoc (GetOrCreateLabel ("case." ++ dec id ++ "." ++ dec z)%string) brIfOpen SetInsertPoint (genS s (Some (id, vals ++ [z]))) (genL l)).
Qed.
Lemma eqm_label x s l sw : eqm (genS (SBlock (SCons (SLabel x s) l)) sw) (genS (SLabel x (SBlock (SCons s l))) sw).
Proof. exact (eqm_assoc (GetOrCreateLabel x) brIfOpen SetInsertPoint (genS s sw) (genL l)). Qed.
(** Declaring several names at once or one after the other. *)
Lemma declare_app a b : eqm (declareAutos (a ++ b)) (bind (declareAutos a) (fun _ => declareAutos b)).
Proof.
  induction a as [|[x n] a IH]; [intros s; reflexivity|]. intros s. cbn [app declareAutos]. unfold bind in *.
  destruct ((if (n =? -1)%Z then DeclareLocal x else DeclareLocalArray x n) s) as [u s1| |]; [exact (IH s1)|reflexivity..].
Qed.
Lemma declare_locals a s : exists s', declareAutos a s = Ok tt s' /\ map fst (c_locals (cs s')) = rev (map fst a) ++ map fst (c_locals (cs s)).
Proof.
  revert s. induction a as [|[x n] a IH]; intros s; [eexists; split; reflexivity|]. cbn [declareAutos map rev fst].
  assert (D : exists s1, (if (n =? -1)%Z then DeclareLocal x else DeclareLocalArray x n) s = Ok tt s1 /\ map fst (c_locals (cs s1)) = x :: map fst (c_locals (cs s))).
  { destruct (n =? -1)%Z; eexists; split; reflexivity. }
  destruct D as (s1 & D & E). unfold bind. rewrite D. destruct (IH s1) as (s2 & -> & F). exists s2. split; [reflexivity|]. rewrite F, E, <- app_assoc. reflexivity.
Qed.
Lemma mem_In x l : mem x l = true <-> In x l.
Proof.
  induction l as [|y l IH]; cbn; [intuition discriminate|]. destruct (String.eqb_spec x y); subst; cbn.
  - intuition.
  - rewrite IH. intuition congruence.
Qed.
Lemma mem_app x l k : mem x (l ++ k) = mem x l || mem x k.
Proof. apply eq_iff_eq_true. rewrite orb_true_iff, !mem_In. rewrite in_app_iff. tauto. Qed.
Lemma check_app a b s : forall seen, checkAutos seen (a ++ b) s =
  match checkAutos seen a s with Ok _ _ => checkAutos (rev (map fst a) ++ seen) b s | Err e => Err e | Fuel => Fuel end.
Proof.
  induction a as [|[x n] a IH]; intros seen; [reflexivity|]. cbn [app checkAutos map fst rev]. unfold bind, get.
  destruct (mem x seen); [reflexivity|]. destruct (mem x (map fst (c_locals (cs s)))); [reflexivity|]. rewrite IH, <- app_assoc. reflexivity.
Qed.
Lemma check_same s s' b : forall seen seen', (forall x, mem x seen || mem x (map fst (c_locals (cs s))) = mem x seen' || mem x (map fst (c_locals (cs s')))) ->
  match checkAutos seen b s with
  | Ok _ t => t = s /\ checkAutos seen' b s' = Ok tt s'
  | Err e => checkAutos seen' b s' = Err e
  | Fuel => False
  end.
Proof.
  induction b as [|[x n] b IH]; intros seen seen' H; [cbn; auto|]. cbn [checkAutos]. unfold bind, get. pose proof (H x) as X.
  destruct (mem x seen) eqn:S1; cbn [orb] in X.
  - unfold errorf. destruct (mem x seen'); [reflexivity|]. cbn [orb] in X. rewrite <- X. reflexivity.
  - destruct (mem x (map fst (c_locals (cs s)))) eqn:S2.
    + unfold errorf. destruct (mem x seen'); [reflexivity|]. cbn [orb] in X. rewrite <- X. reflexivity.
    + symmetry in X. apply orb_false_iff in X. destruct X as [-> ->]. apply IH. intros y. pose proof (H y). change (mem y (x :: seen)) with (String.eqb y x || mem y seen). change (mem y (x :: seen')) with (String.eqb y x || mem y seen'). rewrite <- !orb_assoc, H0. reflexivity.
Qed.
Lemma eqm_autos a b l sw : eqm (genL (SCons (SAuto (a ++ b)) l) sw) (genL (SCons (SAuto a) (SCons (SAuto b) l)) sw).
Proof.
  intros s. cbn [Syntax.genL Syntax.genS]. unfold bind at 1 2 3 4 5. rewrite check_app.
  pose proof (check_same s s a [] [] (fun x => eq_refl)) as A. destruct (checkAutos [] a s) as [u t| |] eqn:CA; [|reflexivity|contradiction].
  destruct A as [-> _]. destruct (declare_locals a s) as (s1 & D & E). rewrite app_nil_r.
  unfold bind. rewrite D. cbn [ret].
  assert (H : forall x, mem x (rev (map fst a)) || mem x (map fst (c_locals (cs s))) = mem x [] || mem x (map fst (c_locals (cs s1)))).
  { intros x. rewrite E, mem_app. reflexivity. }
  pose proof (check_same s s1 b (rev (map fst a)) [] H) as B. destruct (checkAutos (rev (map fst a)) b s) as [u' t'| |]; [|rewrite B; reflexivity|contradiction].
  destruct B as [-> B]. rewrite B. rewrite declare_app. unfold bind. rewrite D. destruct (declareAutos b s1); reflexivity.
Qed.
Lemma extrn_app a b : eqm (genExtrn (a ++ b)) (bind (genExtrn a) (fun _ => genExtrn b)).
Proof.
  induction a as [|x a IH]; [intros s; reflexivity|]. intros s. cbn [app genExtrn]. unfold bind in *.
  destruct (externName x s) as [u s1| |]; [exact (IH s1)|reflexivity..].
Qed.
Lemma eqm_extrns a b l sw : eqm (genL (SCons (SExtrn (a ++ b)) l) sw) (genL (SCons (SExtrn a) (SCons (SExtrn b) l)) sw).
Proof.
  intros s. cbn [Syntax.genL Syntax.genS]. unfold bind at 1 2 3 4. rewrite extrn_app. unfold bind.
  destruct (genExtrn a s) as [u s1| |]; [|reflexivity..]. cbn [ret]. destruct (genExtrn b s1); reflexivity.
Qed.
Lemma eqm_same :
  (forall s s', sameS s s' -> forall sw, eqm (genS s sw) (genS s' sw)) /\
  (forall l l', sameL l l' -> forall sw, eqm (genL l sw) (genL l' sw)).
Proof.
  apply same_ind2; intros; try apply eqm_refl; try apply eqm_case; try apply eqm_label; try apply eqm_autos; try apply eqm_extrns; cbn [Syntax.genS Syntax.genL]; try solve [go].
  - intros st. symmetry. apply H.
  - intros st. rewrite H. apply H0.
  - intros st. symmetry. apply eqm_ret.
  - destruct sw as [[id vals]|]; go.
  - intros st. symmetry. apply H.
  - intros st. rewrite H. apply H0.
  - apply eqm_andthen.
Qed.
Lemma eqm_sameD d d' : sameD d d' -> eqm (genD chk d) (genD chk d').
Proof. intros [| |x ps s s' H]; try apply eqm_refl. unfold genD. go. apply (proj1 eqm_same). exact H. Qed.
Lemma eqm_sameP ds ds' : same_braces ds ds' -> eqm (genP chk ds) (genP chk ds').
Proof. induction 1 as [|d d' r r' D _ IH]; [apply eqm_refl|]. cbn [genP]. apply eqm_bind; [apply eqm_sameD, D|intro; exact IH]. Qed.
Lemma same_generate ds ds' : same_braces ds ds' -> generate chk ds = generate chk ds'.
Proof. intros H. unfold generate. rewrite (eqm_sameP _ _ H). reflexivity. Qed.
End G.

(** ** Generating code always ends *)
Definition nf {A} (m : C A) : Prop := forall s, m s <> Fuel.
Lemma nf_bind {A B} (m : C A) (k : A -> C B) : nf m -> (forall a, nf (k a)) -> nf (bind m k).
Proof. intros H K s. unfold bind. pose proof (H s). destruct (m s); [apply K|discriminate|congruence]. Qed.
Lemma nf_ret {A} (a : A) : nf (ret a). Proof. intros s. discriminate. Qed.
Lemma nf_err {A} t : nf (errorf t : C A). Proof. intros s. discriminate. Qed.
Ltac nhead t := match t with ?f _ => nhead f | _ => t end.
Ltac nfs := repeat first [solve [auto] | apply nf_ret | apply nf_err | apply nf_bind; [|intro] |
  match goal with
  | |- nf (match ?x with _ => _ end) => destruct x
  | |- nf (let _ := _ in _) => cbv zeta
  | |- nf ?t => let h := nhead t in first [is_fix h; fail 1 | unfold h; cbv beta]
  end | (intros ?s; discriminate)].
Lemma nf_autos l seen : nf (checkAutos seen l). Proof. revert seen. induction l as [|[x n] l IH]; intros; cbn [checkAutos]; nfs. Qed.
Lemma nf_gen chk : (forall e q, nf (gen chk q e)) /\ (forall l, nf (genArgs chk l)).
Proof. apply expr_exprs_ind; intros; cbn [gen genArgs]; nfs. Qed.
Lemma nf_genR chk q e : nf (genR chk q e). Proof. unfold genR. apply nf_bind; [apply nf_gen|]. intros []. nfs. Qed.
Lemma nf_extrn l : nf (genExtrn l). Proof. induction l; cbn [genExtrn]; nfs. Qed.
Lemma nf_declareAutos l : nf (declareAutos l). Proof. induction l as [|[x n] l IH]; cbn [declareAutos]; nfs. Qed.
Lemma nf_switchCases id l : nf (switchCases id l). Proof. induction l; cbn [switchCases]; nfs. Qed.
Ltac nss := repeat first [solve [auto] | apply nf_genR | apply nf_extrn | apply nf_autos | apply nf_declareAutos | apply nf_switchCases | apply nf_bind; [|intro] |
   match goal with |- nf (match ?x with _ => _ end) => destruct x end | solve [nfs]].
Lemma nf_genS chk : (forall s sw, nf (genS chk s sw)) /\ (forall l sw, nf (genL chk l sw)).
Proof. apply stmt_stmts_ind; intros; cbn [genS genL]; nss. Qed.
Lemma nf_ivals l : nf (genIvals l). Proof. induction l; cbn [genIvals]; nfs. Qed.
Lemma nf_va va l : nf (va_params va l). Proof. induction l as [|x l IH]; cbn [va_params]; nfs. Qed.
Lemma nf_genD chk d : nf (genD chk d).
Proof. destruct d; unfold genD; nss; try apply nf_ivals; try apply nf_genS.
  cbv zeta. destruct (match assoc name (c_fparams a1) with Some ps => ps | None => [] end) as [|p [|p' l]]; nss. apply nf_va.
Qed.
Lemma nf_genP chk ds : nf (genP chk ds).
Proof. induction ds; cbn [genP]; [nfs|]. apply nf_bind; [apply nf_genD|auto]. Qed.
Lemma generate_nf chk ds : generate chk ds <> Fuel.
Proof. unfold generate. pose proof (nf_genP chk ds (mkSt (mkLexer [] false) NewCompiler)). destruct (genP _ _ _); congruence. Qed.
