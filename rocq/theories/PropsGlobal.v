(** * PropsGlobal: C35 (what the variables of a file hold when the program starts), C58 (storage of other files), C62 (string literals) *)
From Coq Require Import List Ascii String ZArith NArith Lia Bool.
From Verif Require Import Base Lexer LexerFacts SpecLex IR Builder Expr Stmt Decl Wp Syntax Pure ParseGen Pwp Msteps InvIR InvDecl Built Names SpecStatic Static InvSym SpecText RenderWf TextTac PropsSym
  SpecSem IRSem SpecLink SimFun SimAny SemEx Strings PropsExpr.
Import ListNotations.
Open Scope string_scope.
Open Scope list_scope.
Open Scope Z_scope.

(** ** The memory at the start *)
(** Part of the LLVM language reference, like IRSem.v: the words and bytes of
    the initialisers of the globals of a module are at the addresses the linker
    gave to the symbols. *)
Definition cvalue {W} (I : ihost W) (w : cword) : Z :=
  wrap64 (match w with CInt z => z | CAddr s sz k => i_sym I s + sz * k end).
Definition bytes_at (m : memory) (a : Z) (l : list ascii) : Prop := forall i b, nth_error l i = Some b -> m_byte m (a + Z.of_nat i) = Some (code b).
Definition loaded_one {W} (I : ihost W) (m : memory) (g : gdef) : Prop :=
  let a := i_sym I (g_name g) in
  match g_init g with
  | GWord w => load m a = Some (cvalue I w)
  | GWords n ws => forall i w, nth_error ws i = Some w -> Z.of_nat i < n -> load m (a + 8 * Z.of_nat i) = Some (cvalue I w)
  | GZeros n => forall i, 0 <= i < n -> load m (a + 8 * i) = Some 0
  | GBytes bs => bytes_at m a bs
  end.
Definition loaded {W} (I : ihost W) (M : module_) (m : memory) : Prop := Forall (loaded_one I m) (m_globals M).
(** Symbols are at ordinary addresses. *)
Definition low {W} (I : ihost W) : Prop := forall s, 0 <= i_sym I s < 2 ^ 62.

(** ** What the definitions of a file ask for *)
(** The word [z] is what the initialiser [v] stands for: a number, or the
    address of the characters of a string and a null byte. *)
Definition stands (m : memory) (v : ival) (z : Z) : Prop :=
  match v with IvInt k => z = k | IvStr s => bytes_at m z (list_ascii_of_string s ++ [NUL]) end.
(** The words from [a] on hold the initialisers [vs]. *)
Definition holds (m : memory) (a : Z) (vs : list ival) : Prop :=
  forall i v, nth_error vs i = Some v -> exists z, load m (a + 8 * Z.of_nat i) = Some z /\ stands m v z.
(** The variable at [a] defined by [d] holds its initial value. *)
Definition initial (m : memory) (a : Z) (d : decl) : Prop :=
  match d with
  | DGlobal _ [] => load m a = Some 0
  | DGlobal _ vs => holds m a vs
  | DVector _ n vs =>
      let k := Z.of_nat (List.length vs) in
      let len := if n =? 0 then Z.max k 1 else n in
      exists p, load m a = Some p /\ holds m p (firstn (Z.to_nat len) vs) /\ (forall i, k <= i < len -> load m (p + 8 * i) = Some 0)
  | DFunction _ _ _ => True
  end.

(** ** The objects of a definition stay in the module *)
Definition data_kept (a b : list gdef) : Prop := forall x g, In g a -> g_name g = (globalName x ++ ".data")%string -> In g b.
Lemma data_refl a : data_kept a a. Proof. intros x g; auto. Qed.
Lemma data_trans a b c : data_kept a b -> data_kept b c -> data_kept a c. Proof. intros H1 H2 x g H E. eauto. Qed.
Lemma data_app a l : data_kept a (a ++ l). Proof. intros x g H _. apply in_or_app. auto. Qed.
Lemma data_remove a y : nodot y -> data_kept a (remove_named g_name (globalName y) a).
Proof.
  intros N x g H E. induction a as [|h a IH]; cbn in *; [contradiction|].
  destruct (String.eqb_spec (g_name h) (globalName y)) as [F|F]; destruct H as [->|H]; cbn; auto.
  exfalso. apply (globalName_data y x N). congruence.
Qed.
Lemma mstep_data a b : mstep a b -> data_kept (c_mglobals a) (c_mglobals b).
Proof. intros []; cbn; auto using data_refl, data_app. destruct H as (-> & _). apply data_refl. Qed.
Lemma msteps_data a b : msteps a b -> data_kept (c_mglobals a) (c_mglobals b).
Proof. induction 1; eauto using data_refl, data_trans, mstep_data. Qed.
Lemma wfD_nodot d : wfD d -> is_function d = false -> nodot (dname d).
Proof. intros W F. destruct d; [apply nodot_name, W..|discriminate]. Qed.
Lemma genD_data chk d c : wfD d -> pwp (genD chk d) (fun _ c' => data_kept (c_mglobals c) (c_mglobals c')) c.
Proof.
  intros W. destruct (is_function d) eqn:F.
  - destruct d as [| |n ps b]; try discriminate. eapply pwp_mono; [apply function_globals|]. cbv beta.
    intros u c' (c1 & c2 & E1 & _ & [sw Y] & E2 & _). rewrite E2, <- E1. apply msteps_data. exact (MS_genS chk b None c1 _ _ Y).
  - eapply pwp_mono; [apply variable_globals; auto|]. cbv beta. intros u c' (ws & gs & (l & -> & _) & _ & E). rewrite E, <- app_assoc.
    eapply data_trans; [apply data_remove, (wfD_nodot d W F)|apply data_app].
Qed.
Lemma genP_data chk ds : wfP ds -> forall c, pwp (genP chk ds) (fun _ c' => data_kept (c_mglobals c) (c_mglobals c')) c.
Proof.
  intros W. induction W as [|d ds HD W IH]; intros c; cbn [genP]; [apply pwp_ret, data_refl|].
  eapply pwp_use; [auto with pure|apply genD_data; auto|]. cbv beta. intros u c1 K. eapply pwp_mono; [apply IH|]. cbv beta. intros. eapply data_trans; eauto.
Qed.
Lemma objects_kept chk ds c u c' d ws g : wfP ds -> is_function d = false -> (forall d', In d' ds -> is_function d' = true \/ dname d' <> dname d) ->
  nodot (dname d) -> yields (genP chk ds) c u c' -> with_sym (globalName (dname d)) (c_mglobals c) = [main_object d ws] ->
  In g (objects d ws) -> In g (c_mglobals c) -> In g (c_mglobals c').
Proof.
  intros W F NA N Y S HO HI. destruct u.
  destruct (string_dec (g_name g) (globalName (dname d))) as [E|E].
  - destruct (genP_other chk ds _ N NA _ _ _ Y) as [_ K]. specialize (K _ S).
    assert (X : In g (with_sym (globalName (dname d)) (c_mglobals c))) by (apply filter_In; split; [exact HI|apply String.eqb_eq; exact E]).
    rewrite S in X. rewrite <- K in X. apply filter_In in X. exact (proj1 X).
  - pose proof (genP_data chk ds W c _ _ Y) as K. cbv beta in K. destruct d as [n vs|n z vs|]; [| |discriminate]; cbn [objects dname] in *.
    + destruct HO as [<-|[]]. destruct (E eq_refl).
    + cbv zeta in HO. destruct (_ && _); [|destruct HO as [<-|[]]; destruct (E eq_refl)].
      destruct HO as [<-|[<-|[]]]; [|destruct (E eq_refl)]. apply (K n); auto.
Qed.

Lemma forall2_nth {A B} (P : A -> B -> Prop) l k : Forall2 P l k -> forall i a, nth_error l i = Some a -> exists b, nth_error k i = Some b /\ P a b.
Proof. induction 1; intros [|i] a E; try discriminate; cbn in E; [injection E as <-; eexists; split; [reflexivity|auto]|eauto]. Qed.
Lemma vector_words_nth ws : forall n i w, nth_error (firstn n ws) i = Some w -> nth_error (vector_words n ws) i = Some w.
Proof.
  induction ws as [|v ws IH]; intros [|n] [|i] w E; cbn in *; try discriminate; auto.
Qed.
Lemma vector_words_zero ws : forall n i, (List.length ws <= i < n)%nat -> nth_error (vector_words n ws) i = Some (CInt 0).
Proof.
  induction ws as [|v ws IH]; intros n i L.
  - revert i L. induction n as [|n IHn]; intros i L; [lia|]. destruct i; cbn; auto. apply IHn. cbn. lia.
  - destruct n as [|n]; [lia|]. destruct i as [|i]; cbn in *; [lia|]. apply IH. lia.
Qed.
Lemma nth_firstn {A} (l : list A) : forall n i a, nth_error (firstn n l) i = Some a -> (i < n)%nat /\ nth_error l i = Some a.
Proof. induction l as [|x l IH]; intros [|n] [|i] a E; cbn in *; try discriminate; [split; [lia|auto]|]. apply IH in E. split; [lia|tauto]. Qed.
Lemma cvalue_low {W} (I : ihost W) s sz k : low I -> 0 <= sz * k <= 8 -> cvalue I (CAddr s sz k) = i_sym I s + sz * k.
Proof. intros L B. unfold cvalue. apply wrap64_id. specialize (L s). lia. Qed.
Lemma word_stands {W} (I : ihost W) M m v w : low I -> loaded I M m -> wf_ival v -> word_for (m_globals M) v w -> stands m v (cvalue I w).
Proof.
  intros L LD WF H. destruct v as [z|s]; cbn [word_for stands] in *.
  - subst w. apply wrap64_id. exact WF.
  - destruct H as (k & -> & HI). unfold loaded in LD. rewrite Forall_forall in LD. specialize (LD _ HI).
    rewrite cvalue_low by (auto; lia). rewrite Z.mul_0_r, Z.add_0_r. exact LD.
Qed.
Lemma initial_objects {W} (I : ihost W) M m d ws : low I -> loaded I M m -> wfD d -> is_function d = false ->
  Forall2 (word_for (m_globals M)) (ivals d) ws -> (forall g, In g (objects d ws) -> In g (m_globals M)) ->
  (match d with DVector _ n vs => Z.of_nat (List.length vs) < 2 ^ 62 /\ 0 <= n < 2 ^ 62 | _ => True end) ->
  initial m (i_sym I (globalName (dname d))) d.
Proof.
  intros L LD WF F W2 HO SZ. pose proof LD as LD'. unfold loaded in LD'. rewrite Forall_forall in LD'.
  assert (LO : forall g, In g (objects d ws) -> loaded_one I m g) by auto. clear LD'.
  assert (ST : forall i v, nth_error (ivals d) i = Some v -> exists w, nth_error ws i = Some w /\ stands m v (cvalue I w)).
  { intros i v E. destruct (forall2_nth _ _ _ W2 _ _ E) as (w & E2 & K). exists w. split; auto.
    apply (word_stands I M); auto. assert (X : Forall wf_ival (ivals d)) by (destruct d; [apply WF..|constructor]).
    rewrite Forall_forall in X. apply X. eapply nth_error_In; eauto. }
  assert (LEN : List.length (ivals d) = List.length ws) by (clear - W2; induction W2; cbn; congruence).
  destruct d as [n vs|n z vs|]; [| |discriminate]; cbn [dname ivals objects] in *.
  - specialize (LO _ (or_introl eq_refl)). unfold loaded_one in LO. cbn [g_name g_init] in LO.
    destruct ws as [|w [|w2 ws]].
    + destruct vs; [|discriminate]. cbn [initial]. exact LO.
    + destruct vs as [|v [|v2 vs]]; try discriminate. cbn [initial]. intros i v' E.
      destruct i as [|i]; [|destruct i; discriminate E]. destruct (ST _ _ E) as (w' & E2 & K). injection E2 as <-.
      exists (cvalue I w). rewrite Z.add_0_r. split; auto.
    + destruct vs as [|v [|v2 vs]]; try discriminate. cbn [initial]. intros i v' E.
      destruct (ST _ _ E) as (w' & E2 & K). exists (cvalue I w'). split; auto. apply LO; auto.
      assert (i < List.length (w :: w2 :: ws))%nat by (apply nth_error_Some; congruence). lia.
  - cbn [initial]. cbv zeta in *. destruct SZ as [SZ1 SZ2].
    set (len := if z =? 0 then Z.max (Z.of_nat (List.length vs)) 1 else z).
    assert (EL : (if z =? 0 then if (List.length ws =? 0)%nat then 1 else Z.of_nat (List.length ws) else z) = len).
    { unfold len. rewrite LEN. destruct (z =? 0); auto. destruct (List.length ws); cbn [Nat.eqb]; lia. }
    rewrite EL in LO. clear EL HO.
    assert (IZ : 0 <= len < 2 ^ 62) by (unfold len; destruct (z =? 0) eqn:EZ; lia).
    destruct ((List.length ws =? 0)%nat && (1 <? len)) eqn:B.
    + apply andb_true_iff in B. destruct B as [B1 B2]. apply Nat.eqb_eq in B1. apply Z.ltb_lt in B2.
      destruct vs; [|cbn in LEN; lia]. pose proof (LO _ (or_introl eq_refl)) as D. pose proof (LO _ (or_intror (or_introl eq_refl))) as G.
      unfold loaded_one in D, G. cbn [g_name g_init] in D, G. specialize (G 0%nat _ eq_refl ltac:(lia)). rewrite Z.add_0_r in G.
      rewrite (cvalue_low I _ 8 0 L) in G by lia. rewrite Z.mul_0_r, Z.add_0_r in G.
      eexists. split; [exact G|]. split.
      * rewrite firstn_nil. intros [|i] v E; discriminate E.
      * intros i Hi. apply D. unfold u64. rewrite Z.mod_small; [cbn in Hi; lia|lia].
    + pose proof (LO _ (or_introl eq_refl)) as G. unfold loaded_one in G. cbn [g_name g_init] in G.
      assert (U : u64 (wrap64 (len + 1)) = len + 1).
      { rewrite wrap64_id by lia. unfold u64. apply Z.mod_small. lia. }
      rewrite U in G. clear U.
      pose proof (G 0%nat _ eq_refl ltac:(lia)) as G0. rewrite Z.add_0_r in G0.
      rewrite (cvalue_low I _ 8 1 L) in G0 by lia. rewrite Z.mul_1_r in G0.
      assert (GN : forall i w, nth_error (vector_words (Z.to_nat len) ws) i = Some w -> Z.of_nat i < len ->
        load m (i_sym I (globalName n) + 8 + 8 * Z.of_nat i) = Some (cvalue I w)).
      { intros i w E Li. specialize (G (S i) w E ltac:(lia)). rewrite <- G. f_equal. lia. }
      eexists. split; [exact G0|]. split.
      * intros i v E. apply nth_firstn in E. destruct E as [Li E]. destruct (ST _ _ E) as (w & E2 & K). exists (cvalue I w). split; auto.
        apply GN; [|lia]. apply vector_words_nth. rewrite <- E2. clear - Li. revert i Li. generalize (Z.to_nat len) as k. intros k. revert k.
        induction ws as [|x ws IH]; intros [|k] [|i] Li; try lia; auto. apply IH. lia.
      * intros i Hi. specialize (GN (Z.to_nat i) (CInt 0)). rewrite Z2Nat.id in GN by lia. rewrite GN; [reflexivity| |lia].
        apply vector_words_zero. lia.
Qed.

(** ** C35 *)
(** Vectors of sensible size: the number written between the brackets is not
    read as a negative one (2^63 and above), and the vector fits the memory. *)
Definition sized (d : decl) : Prop :=
  match d with DVector _ n vs => Z.of_nat (List.length vs) < 2 ^ 62 /\ 0 <= n < 2 ^ 62 | _ => True end.
(** The last definition of a name as a variable says what it holds. Missing: a
    vector with more initialisers than its written size has only that many
    words (refuted below). *)
Theorem C35_storage_partial : forall ds M before d after, module_of ds M -> ds = before ++ d :: after ->
  is_function d = false -> (forall d', In d' after -> is_function d' = true \/ dname d' <> dname d) -> sized d ->
  forall W (H : host W) I m, linked H I M -> low I -> loaded I M m -> initial m (h_addr H (dname d)) d.
Proof.
  intros ds M bf d af MO -> F NA SZ W H I m LK LO LD. destruct (module_of_generate _ _ MO) as [WF GEN].
  apply generate_yields in GEN. destruct GEN as (cf & Y & ->).
  apply genP_app in Y. destruct Y as (c & Y1 & Y2). rewrite genP_cons in Y2. apply yields_bind_inv in Y2; [|auto with pure].
  destruct Y2 as ([] & c' & Y2 & Y3). unfold wfP in WF. apply Forall_app in WF. destruct WF as [W1 W2]. inversion W2; subst.
  pose proof (wfD_nodot d H2 F) as N.
  assert (L : (List.length (with_sym (globalName (dname d)) (c_mglobals c)) <= 1)%nat).
  { refine (genP_once true bf _ W1 N _ _ _ _ Y1). cbn. lia. }
  destruct (variable_globals true d c F _ _ Y2) as (ws & gs & S & WD & E).
  rewrite <- (lk_addr _ _ _ LK). apply (initial_objects I (Decl.module_of cf) m d ws); auto.
  - eapply Forall2_impl; [|exact WD]. intros v w. apply word_for_kept. eapply strs_trans; [apply (strs_app gs (objects d ws))|]. rewrite <- E.
    exact (genP_strs true af _ _ _ Y3).
  - intros g HO. apply (objects_kept true af c' tt cf d ws g); auto.
    + rewrite E, with_sym_app, (strings_sym _ _ _ S), remove_with_sym, objects_sym by auto. rewrite !String.eqb_refl.
      destruct (objects_main d ws F) as [-> _]. destruct (with_sym _ (c_mglobals c)) as [|g' [|h l]]; cbn in *; auto. lia.
    + rewrite E. apply in_or_app. auto.
Qed.
Print Assumptions C35_storage_partial.

(** ** C62 *)
(** The address of the k-th literal of a file is that of its characters and a
    null byte. *)
Theorem C62_literals : forall ds M k s, module_of ds M -> nth_error (textsP ds) k = Some s ->
  forall W (H : host W) I m, linked H I M -> loaded I M m -> bytes_at m (h_lit H (Z.of_nat k)) (list_ascii_of_string s ++ [NUL]).
Proof.
  intros ds M k s MO E W H I m LK LD. destruct (module_of_generate _ _ MO) as [WF GEN].
  apply generate_yields in GEN. destruct GEN as (cf & Y & ->). destruct (str_genP true ds _ _ _ Y) as (p & E1 & _ & _ & K).
  rewrite app_nil_r in E1. subst p. specialize (K _ _ E). cbn [c_stringID NewCompiler] in K. rewrite Z.add_0_l in K.
  unfold loaded in LD. rewrite Forall_forall in LD. specialize (LD _ K). cbn in LD. rewrite <- (lk_lit _ _ _ LK). exact LD.
Qed.
Print Assumptions C62_literals.
(** So the literals of a function have the addresses by which the reference
    semantics evaluates its body (C25, C29). *)
Theorem C62_function : forall ds M f ps b k i s, module_of ds M -> defined 0 ds f None = Some (ps, b, k) -> nth_error (textsS b) i = Some s ->
  forall W (H : host W) I m, linked H I M -> loaded I M m -> bytes_at m (h_lit H (k + Z.of_nat i)) (list_ascii_of_string s ++ [NUL]).
Proof.
  intros ds M f ps b k i s MO D E W H I m LK LD.
  destruct (defined_texts ds [] f None ps b k) as (n & -> & K); [discriminate|exact D|]. rewrite <- Nat2Z.inj_add.
  apply (C62_literals ds M) with (I := I); auto.
Qed.
Print Assumptions C62_function.
(** A function that returns a literal. *)
Theorem C62_value : forall W (H : host W) I M call f sc r k s args m w m1 w1,
  at_expression H I M call f sc r k (EStr s) args m w m1 w1 -> loaded I M m ->
  exists z, (forall x, icall I M (globalName f) args m w x <-> x = XRet z (pop m m1) w1) /\ bytes_at m z (list_ascii_of_string s ++ [NUL]).
Proof.
  intros W H I M call f sc r k s args m w m1 w1 AE LD. exists (h_lit H k). split.
  - exact (at_expression_follows H I M call _ _ _ _ _ _ _ _ _ _ false AE (noloc_any _ _)).
  - destruct AE as [LK SEP CA (ds & ps & pre & MO & D & ND & F & -> & E)].
    rewrite <- (Z.add_0_r k). change 0 with (Z.of_nat 0). apply (C62_function ds M f ps (returns pre (EStr s)) k 0%nat s) with (I := I); auto.
    unfold returns. cbn [textsS]. clear - F. induction F as [|d pre F1 F IH]; [reflexivity|]. cbn [sequence textsL]. destruct d; cbn in *; try contradiction; exact IH.
Qed.
Print Assumptions C62_value.

(** ** Examples *)
(** A memory with the globals of a module. *)
Fixpoint words_at {W} (I : ihost W) (a : Z) (ws : list cword) (m : memory) : memory :=
  match ws with [] => m | w :: r => word_at a (cvalue I w) (words_at I (a + 8) r m) end.
Fixpoint chars_at (a : Z) (bs : list ascii) (m : memory) : memory :=
  match bs with
  | [] => m
  | b :: r => let m' := chars_at (a + 1) r m in
              mkMem (fun x => if x =? a then Some (code b) else m_byte m' x) (m_stack m') ((a, 1) :: m_static m')
  end.
Definition global_at {W} (I : ihost W) (g : gdef) (m : memory) : memory :=
  let a := i_sym I (g_name g) in
  match g_init g with
  | GWord w => word_at a (cvalue I w) m
  | GWords n ws => words_at I a ws m
  | GZeros n => words_at I a (repeat (CInt 0) (Z.to_nat n)) m
  | GBytes bs => chars_at a bs m
  end.
Definition image {W} (I : ihost W) (M : module_) : memory := fold_right (global_at I) empty_mem (m_globals M).
Fixpoint all_from {A} (i : nat) (l : list A) (p : nat -> A -> bool) : bool :=
  match l with [] => true | a :: r => p i a && all_from (S i) r p end.
Lemma all_from_nth {A} (p : nat -> A -> bool) l : forall k, all_from k l p = true -> forall i a, nth_error l i = Some a -> p (k + i)%nat a = true.
Proof.
  induction l as [|b l IH]; intros k K i a E; [destruct i; discriminate|]. cbn in K. apply andb_true_iff in K. destruct K as [K1 K2].
  destruct i as [|i]; cbn in E; [injection E as <-; rewrite Nat.add_0_r; auto|]. rewrite <- Nat.add_succ_comm. apply IH; auto.
Qed.
Definition is_some (o : option Z) (z : Z) : bool := match o with Some x => x =? z | None => false end.
Lemma is_some_eq o z : is_some o z = true -> o = Some z.
Proof. destruct o; cbn; [|discriminate]. intros E. apply Z.eqb_eq in E. congruence. Qed.
Definition loaded_oneb {W} (I : ihost W) (m : memory) (g : gdef) : bool :=
  let a := i_sym I (g_name g) in
  match g_init g with
  | GWord w => is_some (load m a) (cvalue I w)
  | GWords n ws => all_from 0 ws (fun i w => is_some (load m (a + 8 * Z.of_nat i)) (cvalue I w))
  | GZeros n => all_from 0 (repeat tt (Z.to_nat n)) (fun i _ => is_some (load m (a + 8 * Z.of_nat i)) 0)
  | GBytes bs => all_from 0 bs (fun i b => is_some (m_byte m (a + Z.of_nat i)) (code b))
  end.
Lemma loaded_check {W} (I : ihost W) M m : forallb (loaded_oneb I m) (m_globals M) = true -> loaded I M m.
Proof.
  intros K. apply Forall_forall. intros g Hg. rewrite forallb_forall in K. specialize (K g Hg). unfold loaded_oneb in K. unfold loaded_one. cbv zeta in *.
  destruct (g_init g) as [w|n ws|n|bs].
  - apply is_some_eq, K.
  - intros i w E _. apply is_some_eq. exact (all_from_nth _ _ _ K i w E).
  - intros i Hi. apply is_some_eq. assert (X : nth_error (repeat tt (Z.to_nat n)) (Z.to_nat i) = Some tt) by (apply nth_error_repeat; lia).
    pose proof (all_from_nth _ _ _ K _ _ X) as Y. cbv beta in Y. rewrite Nat.add_0_l, Z2Nat.id in Y by lia. exact Y.
  - intros i b E. apply is_some_eq. exact (all_from_nth _ _ _ K i b E).
Qed.
Lemma low_machine l : Z.of_nat (List.length l) < 2 ^ 50 -> low (machine l).
Proof.
  intros L s. cbn [machine i_sym]. assert (0 <= index s l <= Z.of_nat (List.length l)); [|lia].
  clear L. induction l as [|x l IH]; cbn [index List.length]; [lia|]. destruct (String.eqb s x); lia.
Qed.
Definition src35 := $"x;y 1,2;v[3]10,""ab"";u[4];w[0]7,8;main(){extrn v,u,w;return(v[0]+u[3]+w[1]);}t(){return(""cd"");}".
Definition tree35 : list decl := [DGlobal "x" []; DGlobal "y" [IvInt 1; IvInt 2]; DVector "v" 3 [IvInt 10; IvStr "ab"]; DVector "u" 4 []; DVector "w" 0 [IvInt 7; IvInt 8];
  DFunction "main" [] (returns [SExtrn ["v"; "u"; "w"]] (EBin (CBin OAdd) (EBin (CBin OAdd) (EIdx (EVar "v") (EInt 0)) (EIdx (EVar "u") (EInt 3))) (EIdx (EVar "w") (EInt 1))));
  DFunction "t" [] (returns [] (EStr "cd"))].
Definition M35 := module_for src35.
Definition I35 := machine (map g_name (m_globals M35) ++ ["main"; "b.t"]).
Definition H35 := host_of I35.
Definition mem35 := image I35 M35.
Lemma module35 : module_of tree35 M35.
Proof. exists [], src35. split; [apply lay_nil|split; [text|vm_compute; reflexivity]]. Qed.
Lemma linked35 : linked H35 I35 M35. Proof. by_machine. Qed.
Lemma separate35 : separate M35. Proof. by_names. Qed.
Lemma loaded35 : loaded I35 M35 mem35. Proof. apply loaded_check. vm_compute. reflexivity. Qed.
Lemma low35 : low I35. Proof. apply low_machine. vm_compute. reflexivity. Qed.
(** The hypotheses of C35 hold for the variables of this file; main adds up
    three of the words they hold. *)
Example C35_ex : module_of tree35 M35 /\ linked H35 I35 M35 /\ low I35 /\ loaded I35 M35 mem35 /\
  Forall (fun d => is_function d = false -> sized d) tree35 /\
  tree35 = [DGlobal "x" []; DGlobal "y" [IvInt 1; IvInt 2]] ++ DVector "v" 3 [IvInt 10; IvStr "ab"] :: skipn 3 tree35 /\
  initial mem35 (h_addr H35 "v") (DVector "v" 3 [IvInt 10; IvStr "ab"]) /\
  match calls H35 true tree35 5 "main" [] mem35 [] with Val z _ _ => z = 18 | _ => False end.
Proof.
  split; [exact module35|]. split; [exact linked35|]. split; [exact low35|]. split; [exact loaded35|].
  split; [repeat constructor; cbn; intros; try discriminate; try lia|]. split; [reflexivity|]. split; [|vm_compute; reflexivity].
  apply (C35_storage_partial tree35 M35 [DGlobal "x" []; DGlobal "y" [IvInt 1; IvInt 2]] _ (skipn 3 tree35) module35 eq_refl eq_refl) with (I := I35);
    [|cbn; lia|exact linked35|exact low35|exact loaded35].
  intros d Hd. cbn in Hd. repeat (destruct Hd as [<-|Hd]; [first [left; reflexivity|right; discriminate]|]). contradiction.
Qed.
Example C62_ex : nth_error (textsP tree35) 1 = Some "cd" /\ defined 0 tree35 "t" None = Some ([], returns [] (EStr "cd"), 1) /\
  at_expression H35 I35 M35 (calls H35 true tree35 5) "t" (names [] []) (fun _ => None) 1 (EStr "cd") [] mem35 [] mem35 [].
Proof.
  split; [vm_compute; reflexivity|]. split; [vm_compute; reflexivity|]. constructor; [exact linked35|exact separate35| |].
  - intros x args m w. apply (C36_programs_partial _ H35 I35 M35 tree35 true module35 linked35 separate35). by_regular.
  - exists tree35, [], []. split; [exact module35|]. split; [vm_compute; reflexivity|]. repeat (split; [repeat constructor|]). reflexivity.
Qed.
(** [v[1]1,2;] has one word only. *)
Theorem C35_storage_refuted : exists n vs M (I : ihost (list Z)) m p, module_of [DVector "v" n vs] M /\ loaded I M m /\ low I /\
  n < Z.of_nat (List.length vs) /\ load m (i_sym I "b.v") = Some p /\ ~ holds m p vs.
Proof.
  exists 1, [IvInt 1; IvInt 2], (module_for ($"v[1]1,2;")), (machine ["b.v"]), (image (machine ["b.v"]) (module_for ($"v[1]1,2;"))), 1032.
  split; [exists [], ($"v[1]1,2;"); split; [apply lay_nil|split; [text|vm_compute; reflexivity]]|].
  split; [apply loaded_check; vm_compute; reflexivity|]. split; [apply low_machine; vm_compute; reflexivity|].
  split; [vm_compute; reflexivity|]. split; [vm_compute; reflexivity|]. intros K. destruct (K 1%nat _ eq_refl) as (z & E & _).
  assert (X : load (image (machine ["b.v"]) (module_for ($"v[1]1,2;"))) (1032 + 8 * Z.of_nat 1) = None) by (vm_compute; reflexivity).
  rewrite X in E. discriminate E.
Qed.
Print Assumptions C35_storage_refuted.

(** ** C58 *)
(** The names in the extrn statements of a statement. *)
Fixpoint extrns (s : stmt) : list string :=
  match s with
  | SExtrn l => l
  | SBlock l => extrnsL l
  | SIf _ s1 | SWhile _ s1 | SSwitch _ s1 | SCase _ s1 | SLabel _ s1 => extrns s1
  | SIfElse _ s1 s2 => extrns s1 ++ extrns s2
  | SNull | SExpr _ | SReturn _ | SAuto _ | SGoto _ => []
  end
with extrnsL (l : stmts) : list string :=
  match l with SNil => [] | SCons s r => extrns s ++ extrnsL r end.
Lemma chkE_globs e v v' : chkE e v = Some v' -> s_globs v' = s_globs v.
Proof. unfold chkE. destruct (okE _ _ _); [|discriminate]. intros E. injection E as <-. reflexivity. Qed.
Lemma chkAuto_globs l : forall v v', chkAuto l v = Some v' -> s_globs v' = s_globs v.
Proof.
  induction l as [|x l IH]; intros v v' E; cbn in E; [congruence|]. destruct (isin x (s_locs v)); [discriminate|]. apply IH in E. exact E.
Qed.
Lemma chkExtrn_globs l : forall v v', chkExtrn l v = Some v' -> incl (l ++ s_globs v) (s_globs v').
Proof.
  induction l as [|x l IH]; intros v v' E; cbn in E; [injection E as <-; apply incl_refl|].
  destruct (isin x (s_globs v)) eqn:G.
  - apply IH in E. cbn in E. intros y [<-|Hy]; [|auto]. apply E. apply in_or_app. right.
    unfold isin in G. apply existsb_exists in G. destruct G as (z & Hz & Ez). apply String.eqb_eq in Ez. congruence.
  - destruct (isin x (s_funs v)); [discriminate|]. apply IH in E. cbn in E. intros y [<-|Hy]; [apply E, in_or_app; right; left; auto|].
    apply E. apply in_app_or in Hy. apply in_or_app. destruct Hy; [left|right; right]; auto.
Qed.
Lemma chkS_globs : (forall s sw v v', chkS sw s v = Some v' -> incl (extrns s ++ s_globs v) (s_globs v')) /\
  (forall l sw v v', chkL sw l v = Some v' -> incl (extrnsL l ++ s_globs v) (s_globs v')).
Proof.
  apply stmt_stmts_ind; intros; cbn [chkS chkL extrns extrnsL app] in *;
    repeat match goal with
    | H : opt_bind ?o _ = Some _ |- _ => let E := fresh "E" in destruct o eqn:E; cbn [opt_bind] in H; [|discriminate H]
    | H : (if ?b then _ else _) = Some _ |- _ => destruct b; [|discriminate H]
    | H : match ?o with _ => _ end = Some _ |- _ => destruct o
    end;
    repeat match goal with
    | H : chkE _ _ = Some _ |- _ => apply chkE_globs in H
    | H : chkAuto _ _ = Some _ |- _ => apply chkAuto_globs in H
    | H : Some _ = Some _ |- _ => injection H as <-
    | H : s_globs ?v = _ |- context [s_globs ?v] => rewrite H
    end; auto using incl_refl.
  all: try (apply chkExtrn_globs; assumption).
  all: try match goal with IH : forall sw v v', chkS sw ?s v = Some v' -> _, H : chkS _ ?s _ = Some _, E : s_globs _ = _ |- _ => apply IH in H; rewrite E in H; exact H end.
  all: try match goal with IH : forall sw v v', chkS sw ?s v = Some v' -> _, H : chkS _ ?s _ = Some _ |- _ => eapply IH; exact H end.
  all: try match goal with IH : forall sw v v', chkL sw ?s v = Some v' -> _, H : chkL _ ?s _ = Some _ |- _ => eapply IH; exact H end.
  - apply H in E0. apply H0 in H1. rewrite E in E0. intros y Hy; rewrite !in_app_iff in Hy; apply H1, in_or_app; destruct Hy as [[Hy|Hy]|Hy]; auto; right; apply E0, in_or_app; auto.
  - apply H in E. apply H0 in H1. intros y Hy; rewrite !in_app_iff in Hy; apply H1, in_or_app; destruct Hy as [[Hy|Hy]|Hy]; auto; right; apply E, in_or_app; auto.
Qed.
Lemma chkD_globs d v v' : chkD d v = Some v' -> incl (s_globs v) (s_globs v') /\
  forall n ps b, d = DFunction n ps b -> incl (extrns b) (s_globs v').
Proof.
  destruct d as [n vs|n z vs|n ps b]; cbn [chkD]; intros E.
  1,2: injection E as <-; split; [intros y Hy; right; exact Hy|discriminate].
  destruct (chkS false b _) as [v1|] eqn:X; [|discriminate E]. injection E as <-. apply chkS_globs in X. cbn [s_globs] in *. split.
  - intros y Hy. apply X, in_or_app. auto.
  - intros n' ps' b' K. injection K as <- <- <-. intros y Hy. apply X, in_or_app. auto.
Qed.
Lemma chkP_globs ds : forall v v', chkP ds v = Some v' -> incl (s_globs v) (s_globs v') /\
  forall n ps b, In (DFunction n ps b) ds -> incl (extrns b) (s_globs v').
Proof.
  induction ds as [|d ds IH]; cbn [chkP]; intros v v' E.
  - injection E as <-. split; [apply incl_refl|contradiction].
  - destruct (chkD d v) as [v1|] eqn:X; [|discriminate E]. apply chkD_globs in X. apply IH in E. destruct X as [X1 X2], E as [E1 E2].
    split; [eapply incl_tran; eauto|]. intros n ps b [->|K]; [eapply incl_tran; [eapply X2; reflexivity|exact E1]|eapply E2; eauto].
Qed.
(** Every name in an extrn statement is defined by the file itself, whether the
    file has a definition of it or not: the other file that defines it and this
    one both define the symbol, so they cannot be linked. *)
Theorem C58_defined_here : forall ds M n ps b x, module_of ds M -> In (DFunction n ps b) ds -> In x (extrns b) ->
  exists g, In g (m_globals M) /\ g_name g = globalName x.
Proof.
  intros ds M n ps b x MO HI HX. destruct (module_of_generate _ _ MO) as [WF GEN].
  destruct MO as (w & s & _ & T & _). destruct (xP_wf _ _ T) as [W1 W2]. pose proof (generate_iff ds W1 W2) as G.
  destruct (chkP ds empty_env) as [v|] eqn:CK; [|destruct G as [e G]; congruence].
  destruct G as (m' & G1 & _ & G3). rewrite GEN in G1. injection G1 as <-.
  apply chkP_globs in CK. destruct CK as [_ CK]. specialize (CK _ _ _ HI _ HX).
  assert (ND : nodot x).
  { apply nodot_name. unfold wfP in W1. rewrite Forall_forall in W1. specialize (W1 _ HI). destruct W1 as (_ & _ & W1).
    revert HX W1. clear. intros HX W1. assert (X : (forall s, wfS s -> forall x, In x (extrns s) -> name_ok x) /\ (forall l, wfL l -> forall x, In x (extrnsL l) -> name_ok x)).
    { apply stmt_stmts_ind; intros; cbn [extrns extrnsL wfS wfL] in *; try contradiction;
        repeat match goal with H : _ /\ _ |- _ => destruct H end; eauto.
      - rewrite Forall_forall in H. auto.
      - apply in_app_or in H2. destruct H2; eauto.
      - apply in_app_or in H2. destruct H2; eauto. }
    eapply (proj1 X); eauto. }
  apply (G3 x ND) in CK. apply in_map_iff in CK. destruct CK as (g & E & Hg). eauto.
Qed.
Print Assumptions C58_defined_here.
(** A file with [x 5;] and one that uses it as a variable of another file: both
    modules define [b.x], the second with the value 0. *)
Definition src58a := $"x 5;".
Definition src58b := $"main(){extrn x;return(x);}".
Definition tree58b := [DFunction "main" [] (returns [SExtrn ["x"]] (EVar "x"))].
Theorem C58_extrn_refuted : exists ds1 ds2 M1 M2 n ps b x, module_of ds1 M1 /\ module_of ds2 M2 /\
  In (DFunction n ps b) ds2 /\ In x (extrns b) /\ (forall d, In d ds2 -> is_function d = true) /\ In (DGlobal x [IvInt 5]) ds1 /\
  In (mkGlob (globalName x) (GWord (CInt 5)) false) (m_globals M1) /\ In (mkGlob (globalName x) (GWord (CInt 0)) false) (m_globals M2).
Proof.
  exists [DGlobal "x" [IvInt 5]], tree58b, (module_for src58a), (module_for src58b), "main", [], (returns [SExtrn ["x"]] (EVar "x")), "x".
  split; [exists [], src58a; split; [apply lay_nil|split; [text|vm_compute; reflexivity]]|].
  split; [exists [], src58b; split; [apply lay_nil|split; [text|vm_compute; reflexivity]]|].
  split; [left; reflexivity|]. split; [left; reflexivity|]. split; [intros d [<-|[]]; reflexivity|]. split; [left; reflexivity|].
  split; vm_compute; auto.
Qed.
Print Assumptions C58_extrn_refuted.
Example C58_ex : module_of tree58b (module_for src58b) /\ In (DFunction "main" [] (returns [SExtrn ["x"]] (EVar "x"))) tree58b /\
  In "x" (extrns (returns [SExtrn ["x"]] (EVar "x"))).
Proof.
  split; [exists [], src58b; split; [apply lay_nil|split; [text|vm_compute; reflexivity]]|]. split; left; reflexivity.
Qed.
