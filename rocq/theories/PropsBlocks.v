(** * PropsBlocks: names and terminators of basic blocks (C22, C23, C61) *)
From Coq Require Import List Ascii String ZArith NArith Lia Bool.
From Verif Require Import Base Lexer IR Builder Expr Stmt Decl Wp Syntax SpecTree Pure ParseGen Pwp Names InvIR InvDecl InvNames Built InvTerm.
Import ListNotations.
Open Scope string_scope.
Open Scope list_scope.
Open Scope Z_scope.

Local Notation "$ s" := (list_ascii_of_string s%string) (at level 1, format "$ s").

(** ** Facts about compiled functions *)
Lemma finished_names c : map b_name (finished c) = bnames c.
Proof.
  unfold finished, bnames. destruct (nth_error _ _) as [b|]; auto. destruct (b_term b); auto.
  generalize (c_builder c). induction (c_blocks c) as [|x l IH]; intros [|n]; cbn; auto. rewrite IH. auto.
Qed.
Lemma compiled_NI chk c name params body c1 c2 : compiled chk c name params body c1 c2 -> wfS body -> NI c2.
Proof.
  intros (_ & YS & sw & YB) HW. assert (N1 : NI c1) by exact (NI_started name params c _ _ YS).
  destruct (proj1 (kept_genS_all chk) body None HW c1 N1 _ _ YB) as [N2 _]. auto.
Qed.
Lemma declared_blocks name params bs : f_blocks (declared name params bs) = bs.
Proof. destruct params; auto. Qed.
Lemma declared_name name params bs : f_name (declared name params bs) = globalName name.
Proof. destruct params; auto. Qed.
Lemma declared_params name params bs : f_params (declared name params bs) = firstn 1 params.
Proof. destruct params; auto. Qed.
Lemma wfP_body ds n ps b : wfP ds -> In (DFunction n ps b) ds -> name_ok n /\ Forall name_ok ps /\ wfS b.
Proof. unfold wfP. rewrite Forall_forall. intros H K. apply (H _ K). Qed.

(** ** C22 *)
(** The claim is false: a label called [entry] makes a second block of that
    name. *)
Definition entry22 : string := "main(){ entry: goto entry; }".
Theorem C22_block_labels_unique_refuted : exists inp m f,
  compile inp false = Ok m tt /\ In f (m_funcs m) /\ ~ NoDup (map b_name (f_blocks f)).
Proof.
  exists $entry22. destruct (compile $entry22 false) as [m []| |] eqn:E; vm_compute in E; try discriminate.
  injection E as <-. eexists. eexists. split; [reflexivity|]. split; [left; reflexivity|]. cbn.
  intros H. inversion H. apply H2. left. reflexivity.
Qed.
Print Assumptions C22_block_labels_unique_refuted.

(** What holds for every source text: the first block is [entry] and no two
    of the other blocks have the same name. Missing: that no other block is
    called [entry]. *)
Theorem C22_block_labels_unique_partial : forall (inp : list ascii) (failing : bool) (m : module_) (f : func),
  compile inp failing = Ok m tt -> In f (m_funcs m) -> f_blocks f <> [] ->
  hd_error (map b_name (f_blocks f)) = Some "entry" /\ NoDup (tl (map b_name (f_blocks f))).
Proof.
  intros inp fl m f H Hf HN. destruct (compile_sound _ _ _ H) as (ds & HW & HG).
  destruct (generate_from _ _ _ _ HG Hf) as [|(n & ps & b & c & c1 & c2 & HI & HC & ->)]; [contradiction|].
  destruct (wfP_body _ _ _ _ HW HI) as (_ & _ & WB).
  destruct (compiled_NI _ _ _ _ _ _ _ HC WB). rewrite declared_blocks, finished_names. auto.
Qed.
Print Assumptions C22_block_labels_unique_partial.

(** For the generator on a program tree: the names are distinct as soon as no
    function uses a label called [entry]. *)
Lemma dotted_parts id p : In p (gparts id) -> ~ nodot (join p).
Proof.
  intros H N. eapply (gname_not_label id p H). left. auto.
Qed.
Lemma block_names chk ds m f : wfP ds -> generate chk ds = Ok m tt -> In f (m_funcs m) -> f_blocks f <> [] ->
  exists name params body, In (DFunction name params body) ds /\ f_name f = globalName name /\ f_params f = firstn 1 params /\
    forall n, In n (tl (map b_name (f_blocks f))) -> nodot n -> In n (labels body) \/ In n (gotos body).
Proof.
  intros HW HG Hf HN. destruct (generate_from _ _ _ _ HG Hf) as [|(n & ps & b & c & c1 & c2 & HI & HC & ->)]; [contradiction|].
  destruct (wfP_body _ _ _ _ HW HI) as (_ & _ & WB). exists n, ps, b. split; auto.
  rewrite declared_name, declared_params, declared_blocks, finished_names. split; auto. split; auto.
  destruct (open_blocks _ _ _ _ _ _ _ HC WB) as (_ & _ & K). intros x Hx Nx. apply K; auto.
  destruct (NI_kind _ (compiled_NI _ _ _ _ _ _ _ HC WB) x Hx) as [[_ L]|(id & p & _ & Hp & ->)]; auto.
  exfalso. eapply dotted_parts; eauto.
Qed.
Theorem C22_tree_partial : forall chk ds m f,
  wfP ds -> generate chk ds = Ok m tt -> In f (m_funcs m) ->
  (forall name params body, In (DFunction name params body) ds -> ~ In "entry" (labels body) /\ ~ In "entry" (gotos body)) ->
  NoDup (map b_name (f_blocks f)).
Proof.
  intros chk ds m f HW HG Hf HE. destruct (f_blocks f) as [|b0 bs] eqn:EB; [constructor|].
  assert (NE : f_blocks f <> []) by congruence. rewrite <- EB.
  destruct (block_names _ _ _ _ HW HG Hf NE) as (n & ps & b & HI & _ & _ & K).
  destruct (generate_from _ _ _ _ HG Hf) as [|(n' & ps' & b' & c & c1 & c2 & HI' & HC & E)]; [contradiction|].
  destruct (wfP_body _ _ _ _ HW HI') as (_ & _ & WB). pose proof (compiled_NI _ _ _ _ _ _ _ HC WB) as N.
  assert (EN : map b_name (f_blocks f) = bnames c2) by (rewrite E, declared_blocks, finished_names; auto).
  destruct N. rewrite EN in *. destruct (bnames c2) as [|x l]; [constructor|]. cbn in NI_entry. injection NI_entry as ->.
  cbn [tl] in *. constructor; auto. intros X. destruct (HE _ _ _ HI). destruct (K _ X); auto. apply nodot_b. reflexivity.
Qed.
Print Assumptions C22_tree_partial.

Definition sample22 : string := "main(){ auto i; i=0; lp: if(i<3){ i++; goto lp; } else while(i?1:0) switch(i){ case 1: case 2: goto out; } out: return(i); }".
Definition names_of (s : string) : list (list string) :=
  match compile_string s with Ok m _ => map (fun f => map b_name (f_blocks f)) (m_funcs m) | _ => [] end.
Example C22_nontrivial : names_of sample22 =
  [["entry"; "lp"; "if.0.then"; "if.0.else"; "if.0.end"; "unreachable.1"; "while.2.cond"; "while.2.body"; "while.2.end";
    "cond.then.3"; "cond.else.3"; "cond.end.3"; "switch.4.stmts"; "switch.4.cmp"; "switch.4.end"; "case.4.1"; "case.4.2"; "out"; "unreachable.5"]].
Proof. vm_compute. reflexivity. Qed.

(** ** C61: the first parameter (the only one with a name in the generated
    function) and the blocks share one name space. *)
Definition clash61 : string := "f(x){ x: return(x); }".
Theorem C61_parameter_and_labels_distinct_refuted : exists inp m f p,
  compile inp false = Ok m tt /\ In f (m_funcs m) /\ In p (f_params f) /\ In p (map b_name (f_blocks f)).
Proof.
  exists $clash61. destruct (compile $clash61 false) as [m []| |] eqn:E; vm_compute in E; try discriminate.
  injection E as <-. eexists. eexists. exists "x". split; [reflexivity|]. split; [left; reflexivity|]. cbn. auto.
Qed.
Print Assumptions C61_parameter_and_labels_distinct_refuted.

Theorem C61_parameter_and_labels_distinct_partial : forall chk ds m f p,
  wfP ds -> generate chk ds = Ok m tt -> In f (m_funcs m) -> f_blocks f <> [] -> In p (f_params f) -> p <> "entry" ->
  (forall name params body, In (DFunction name params body) ds -> In p (firstn 1 params) -> ~ In p (labels body) /\ ~ In p (gotos body)) ->
  ~ In p (map b_name (f_blocks f)).
Proof.
  intros chk ds m f p HW HG Hf HN HP NE HE X.
  destruct (block_names _ _ _ _ HW HG Hf HN) as (n & ps & b & HI & _ & EP & K).
  destruct (wfP_body _ _ _ _ HW HI) as (_ & WP & WB).
  rewrite EP in HP. assert (IP : In p ps) by (destruct ps as [|q ps]; [destruct HP|]; destruct HP as [->|[]]; left; auto).
  assert (ND : nodot p) by (rewrite Forall_forall in WP; auto using nodot_name).
  destruct (HE _ _ _ HI HP) as [H1 H2].
  destruct (generate_from _ _ _ _ HG Hf) as [|(n' & ps' & b' & c & c1 & c2 & HI' & HC & E)]; [contradiction|].
  destruct (wfP_body _ _ _ _ HW HI') as (_ & _ & WB'). pose proof (NI_entry _ (compiled_NI _ _ _ _ _ _ _ HC WB')) as N.
  assert (EN : map b_name (f_blocks f) = bnames c2) by (rewrite E, declared_blocks, finished_names; auto).
  rewrite EN in *. destruct (bnames c2) as [|x l]; [destruct X|]. cbn in N. injection N as ->.
  destruct X as [X|X]; [congruence|]. destruct (K p X ND); auto.
Qed.
Print Assumptions C61_parameter_and_labels_distinct_partial.

(** ** C23 *)
(** The claim is false: a goto to a label that is never defined. *)
Definition open23 : string := "main(){ goto x; }".
Theorem C23_blocks_terminated_refuted : exists inp m f b,
  compile inp false = Ok m tt /\ In f (m_funcs m) /\ In b (f_blocks f) /\ b_term b = None.
Proof.
  exists $open23. destruct (compile $open23 false) as [m []| |] eqn:E; vm_compute in E; try discriminate.
  injection E as <-. eexists. eexists. exists (mkBlock "x" [] None). split; [reflexivity|]. split; [left; reflexivity|]. cbn. auto.
Qed.
Print Assumptions C23_blocks_terminated_refuted.

(** For every source text: a block without terminator has no instruction and
    a name without dot, so it is not one that if, while, switch, case or ?:
    made. *)
Theorem C23_blocks_terminated_partial : forall (inp : list ascii) (failing : bool) (m : module_) (f : func) (b : block),
  compile inp failing = Ok m tt -> In f (m_funcs m) -> In b (f_blocks f) -> b_term b = None ->
  b_insts b = [] /\ ~ In "."%char $(b_name b).
Proof.
  intros inp fl m f b H Hf Hb HT. destruct (compile_sound _ _ _ H) as (ds & HW & HG).
  destruct (generate_from _ _ _ _ HG Hf) as [E|(n & ps & bd & c & c1 & c2 & HI & HC & ->)]; [rewrite E in Hb; destruct Hb|].
  destruct (wfP_body _ _ _ _ HW HI) as (_ & _ & WB). rewrite declared_blocks in Hb.
  destruct (open_blocks _ _ _ _ _ _ _ HC WB) as (K & _). destruct (K b Hb HT) as (x & K1 & _ & ->). cbn. split; auto.
  apply nodot_name. destruct (proj1 gotos_ok_all bd WB) as [HGo _]. rewrite Forall_forall in HGo. auto.
Qed.
Print Assumptions C23_blocks_terminated_partial.

(** For the generator on a program tree: the blocks without terminator are
    exactly the targets of gotos whose label is not defined, so there are none
    when every goto has its label. *)
Theorem C23_tree_partial : forall chk ds m f,
  wfP ds -> generate chk ds = Ok m tt -> In f (m_funcs m) -> f_blocks f <> [] ->
  exists name params body, In (DFunction name params body) ds /\ f_name f = globalName name /\
    forall n, (exists b, In b (f_blocks f) /\ b_name b = n /\ b_term b = None) <-> (In n (gotos body) /\ ~ In n (labels body)).
Proof.
  intros chk ds m f HW HG Hf HN.
  destruct (generate_from _ _ _ _ HG Hf) as [|(n & ps & bd & c & c1 & c2 & HI & HC & ->)]; [contradiction|].
  destruct (wfP_body _ _ _ _ HW HI) as (_ & _ & WB). exists n, ps, bd. split; auto. split; [apply declared_name|].
  rewrite declared_blocks. destruct (open_blocks _ _ _ _ _ _ _ HC WB) as (K1 & K2 & _).
  intros x. split.
  - intros (b & Hb & <- & HT). destruct (K1 b Hb HT) as (y & Y1 & Y2 & ->). auto.
  - intros [H1 H2]. exists (mkBlock x [] None). auto.
Qed.
Print Assumptions C23_tree_partial.

Corollary C23_gotos_defined_partial : forall chk ds m f b,
  wfP ds -> generate chk ds = Ok m tt -> In f (m_funcs m) -> In b (f_blocks f) ->
  (forall name params body, In (DFunction name params body) ds -> incl (gotos body) (labels body)) -> b_term b <> None.
Proof.
  intros chk ds m f b HW HG Hf Hb HI E. assert (NE : f_blocks f <> []) by (intros X; rewrite X in Hb; destruct Hb).
  destruct (C23_tree_partial _ _ _ _ HW HG Hf NE) as (n & ps & bd & K1 & _ & K2).
  destruct (proj1 (K2 (b_name b))) as [K3 K4]; eauto. apply K4. eapply HI; eauto.
Qed.
Print Assumptions C23_gotos_defined_partial.

Example C23_nontrivial : exists m, compile_string sample22 = Ok m tt /\
  Forall (fun f => Forall (fun b => b_term b <> None) (f_blocks f)) (m_funcs m).
Proof.
  destruct (compile_string sample22) as [m []| |] eqn:E; vm_compute in E; try discriminate. exists m. split; auto.
  injection E as <-. repeat constructor; discriminate.
Qed.
