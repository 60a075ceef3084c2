(** * InvInit: the initial values of variables *)
From Coq Require Import List Ascii String ZArith NArith Lia Bool.
From Verif Require Import Base Lexer IR Builder Expr Stmt Decl Wp Syntax Pure Pwp SpecIR SpecSem SpecValid ParseGen Built Names InvIR InvDecl Static Msteps InvSym.
Import ListNotations.
Open Scope string_scope.
Open Scope list_scope.
Open Scope Z_scope.

(** Strings and data objects are never removed. *)
Definition stays (n : string) : Prop := (exists k, n = ".str." ++ k)%string \/ exists x, n = (globalName x ++ ".data")%string.
Definition kept (a b : list gdef) : Prop := forall g, In g a -> stays (g_name g) -> In g b.
Lemma kept_refl a : kept a a. Proof. intros g; auto. Qed.
Lemma kept_trans a b c : kept a b -> kept b c -> kept a c. Proof. intros H1 H2 g H E. eauto. Qed.
Lemma kept_app a l : kept a (a ++ l). Proof. intros g H _. apply in_or_app. auto. Qed.
Lemma kept_remove a y : nodot y -> kept a (remove_named g_name (globalName y) a).
Proof.
  intros N g H E. induction a as [|h a IH]; cbn in *; [contradiction|].
  destruct (String.eqb_spec (g_name h) (globalName y)) as [F|F]; destruct H as [->|H]; cbn; auto.
  exfalso. destruct E as [[k E]|[x E]].
  - apply (globalName_str y k). congruence.
  - apply (globalName_data y x N). congruence.
Qed.
(** Addresses: of the object itself or of one that stays. *)
Definition points (gs : list gdef) (g : gdef) : Prop :=
  forall n sz k, In (CAddr n sz k) (init_words (g_init g)) ->
  exists o len, (o = g \/ In o gs /\ stays n) /\ g_name o = n /\ array_of (g_init o) = Some (len, sz).
Definition GI (gs : list gdef) : Prop := Forall (points gs) gs.
Lemma points_kept a b g : kept a b -> points a g -> points b g.
Proof. intros K P n sz k H. destruct (P n sz k H) as (o & len & [->|[H1 H2]] & H3 & H4); [exists g, len; auto|]. exists o, len. subst n. auto. Qed.
Lemma GI_app a l : GI a -> Forall (points (a ++ l)) l -> GI (a ++ l).
Proof.
  intros H1 H2. apply Forall_app. split; auto. eapply Forall_impl; [|exact H1]. intros g. apply points_kept, kept_app.
Qed.
Lemma GI_remove a y : nodot y -> GI a -> GI (remove_named g_name (globalName y) a).
Proof.
  intros N H. pose proof (kept_remove a y N) as K. unfold GI in *. rewrite Forall_forall in *. intros g Hg. apply (points_kept a); auto. apply H.
  clear - Hg. induction a as [|h a IH]; cbn in *; auto. destruct (String.eqb (g_name h) _); [auto|]. destruct Hg; auto.
Qed.
Lemma GI_addresses gs g : GI gs -> In g gs -> addresses_ok gs g.
Proof.
  intros H Hg n sz k HA. unfold GI in H. rewrite Forall_forall in H. destruct (H g Hg n sz k HA) as (o & len & [->|[H1 H2]] & H3 & H4); [exists g, len|exists o, len]; auto.
Qed.
Lemma points_none gs g : init_words (g_init g) = [] -> points gs g.
Proof. intros E n sz k H. rewrite E in H. destruct H. Qed.
Lemma GI_mstep a b : mstep a b -> GI (c_mglobals a) -> GI (c_mglobals b).
Proof.
  intros M HH; destruct M; cbn; auto.
  - destruct H as (-> & _). auto.
  - apply GI_app; auto. constructor; auto. apply points_none. reflexivity.
  - apply GI_app; auto. constructor; auto. intros n sz k [E|[]]. discriminate.
Qed.
Lemma GI_msteps a b : msteps a b -> GI (c_mglobals a) -> GI (c_mglobals b).
Proof. induction 1; eauto using GI_mstep. Qed.
Lemma GI_strings a b : (exists l, b = a ++ l /\ Forall (fun g => init_words (g_init g) = []) l) -> GI a -> GI b.
Proof. intros (l & -> & F) H. apply GI_app; auto. eapply Forall_impl; [|exact F]. intros g. apply points_none. Qed.
Lemma strings_GI a b : strings_only a b -> GI a -> GI b.
Proof.
  intros (l & -> & F) H. apply GI_app; auto. eapply Forall_impl; [|exact F]. intros g (k & bs & ->). apply points_none. reflexivity.
Qed.
Lemma ivals_point gs l ws : Forall2 (word_for gs) l ws -> forall n sz k, In (CAddr n sz k) ws ->
  exists o len, In o gs /\ stays n /\ g_name o = n /\ array_of (g_init o) = Some (len, sz).
Proof.
  induction 1 as [|v w l ws H F IH]; intros n sz k HI; [destruct HI|]. destruct HI as [->|HI]; [|eauto].
  destruct v; cbn in H; [discriminate|]. destruct H as (k' & E & H). injection E as -> -> ->. eexists. eexists. split; [exact H|].
  split; [left; exists k'; reflexivity|]. split; [reflexivity|cbn; reflexivity].
Qed.
Lemma vector_words_in n : forall ws w, In w (vector_words n ws) -> w = CInt 0 \/ In w ws.
Proof.
  induction n as [|n IH]; intros ws w H; [destruct H|]. destruct ws as [|w0 ws]; cbn in H; destruct H as [<-|H]; cbn; auto; destruct (IH _ _ H) as [|K]; auto.
Qed.
Lemma vector_words_length n : forall ws, List.length (vector_words n ws) = n.
Proof. induction n as [|n IH]; intros [|w ws]; cbn; auto. Qed.
Lemma objects_point gs d ws : is_function d = false -> Forall2 (word_for gs) (ivals d) ws -> Forall (points (gs ++ objects d ws)) (objects d ws).
Proof.
  intros F W. pose proof (ivals_point _ _ _ W) as P.
  assert (K : forall l g, (forall w, In w (init_words (g_init g)) -> w = CInt 0 \/ In w ws) -> points (gs ++ l) g).
  { intros l g H n sz k HI. destruct (H _ HI) as [E|E]; [discriminate|]. destruct (P _ _ _ E) as (o & len & H1 & H2 & H3 & H4).
    exists o, len. split; auto. right. split; auto. apply in_or_app. auto. }
  destruct d as [n vs|n z vs|]; [| |discriminate]; cbn [objects]; cbv zeta.
  - constructor; auto. apply K. cbn. intros w H. destruct ws as [|w1 [|w2 ws]]; cbn in H; auto. destruct H as [<-|[]]. auto.
  - destruct (_ && _).
    + constructor; [apply points_none; reflexivity|]. constructor; auto. intros x sz k [E|[]]. injection E as <- <- <-.
      eexists. eexists. split; [right; split; [apply in_or_app; right; left; reflexivity|right; exists n; reflexivity]|split; reflexivity].
    + constructor; auto. intros x sz k [E|H].
      * injection E as <- <- <-. eexists. eexists. split; [left; reflexivity|]. split; reflexivity.
      * destruct (vector_words_in _ _ _ H) as [E|E]; [discriminate|]. destruct (P _ _ _ E) as (o & len & H1 & H2 & H3 & H4).
        exists o, len. split; auto. right. split; auto. apply in_or_app. auto.
Qed.
Lemma GI_genD chk d c : wfD d -> GI (c_mglobals c) -> pwp (genD chk d) (fun _ c' => GI (c_mglobals c')) c.
Proof.
  intros W H. destruct (is_function d) eqn:F.
  - destruct d as [| |n ps b]; try discriminate. eapply pwp_mono; [apply function_globals|]. cbv beta.
    intros u c' (c1 & c2 & E1 & _ & [sw Y] & E2 & _). rewrite E2. rewrite <- E1 in H. eapply GI_msteps; [|exact H]. exact (MS_genS chk b None c1 _ _ Y).
  - eapply pwp_mono; [apply variable_globals; auto|]. cbv beta. intros u c' (ws & gs & S & HW & E). rewrite E.
    apply GI_app; [|apply objects_point; auto]. eapply strings_GI; [exact S|]. apply GI_remove; auto. destruct d; [apply nodot_name, W..|discriminate].
Qed.
Lemma GI_genP chk ds : wfP ds -> forall c, GI (c_mglobals c) -> pwp (genP chk ds) (fun _ c' => GI (c_mglobals c')) c.
Proof.
  intros W. induction W as [|d ds HD W IH]; intros c H; cbn [genP]; [apply pwp_ret; auto|].
  eapply pwp_use; [auto with pure|apply GI_genD; auto|]. cbv beta. auto.
Qed.

(** ** Lengths *)
Definition GL (gs : list gdef) : Prop := Forall length_ok gs.
Lemma GL_mstep a b : mstep a b -> GL (c_mglobals a) -> GL (c_mglobals b).
Proof.
  intros M HH; destruct M; cbn; auto; [destruct H as (-> & _); auto|..]; (apply Forall_app; split; auto; constructor; auto; exact I).
Qed.
Lemma GL_msteps a b : msteps a b -> GL (c_mglobals a) -> GL (c_mglobals b).
Proof. induction 1; eauto using GL_mstep. Qed.
Lemma GL_remove a y : GL a -> GL (remove_named g_name (globalName y) a).
Proof.
  unfold GL. rewrite !Forall_forall. intros H g Hg. apply H. clear - Hg. induction a as [|h a IH]; cbn in *; auto.
  destruct (String.eqb (g_name h) _); [auto|]. destruct Hg; auto.
Qed.
Lemma strings_GL a b : strings_only a b -> GL a -> GL b.
Proof. intros (l & -> & F) H. apply Forall_app. split; auto. eapply Forall_impl; [|exact F]. intros g (k & bs & ->). exact I. Qed.
Lemma objects_length gs d ws : goodD d -> vector_ok d -> Forall2 (word_for gs) (ivals d) ws -> Forall length_ok (objects d ws).
Proof.
  intros G V W. destruct d as [n vs|n z vs|]; cbn [objects]; cbv zeta; [| |constructor].
  - constructor; auto. unfold length_ok. cbn [g_init]. destruct ws as [|w1 [|w2 ws]]; auto.
  - cbn [ivals] in W. assert (WL : List.length vs = List.length ws) by (clear - W; induction W; cbn; auto). clear W. rename WL into W. destruct V as [V1 V2]. destruct G as (_ & G & _). unfold int64 in G. rewrite W in V2.
    set (size := if z =? 0 then _ else z). assert (S : 0 <= size < 2 ^ 63).
    { subst size. destruct (z =? 0); [|lia]. destruct (_ =? 0)%nat; lia. }
    clearbody size. destruct (_ && _).
    + constructor; [|constructor; auto; reflexivity]. unfold length_ok. cbn [g_init]. unfold u64. apply Z.mod_pos_bound. lia.
    + constructor; auto. unfold length_ok. cbn [g_init List.length]. rewrite vector_words_length, Nat2Z.inj_succ, Z2Nat.id by lia.
      unfold u64, wrap64. replace ((size + 1 + 2 ^ 63) mod 2 ^ 64 - 2 ^ 63) with ((size + 1 + 2 ^ 63) mod 2 ^ 64 - 2 ^ 63) by auto.
      rewrite <- Zminus_mod_idemp_l, Z.mod_mod, Zminus_mod_idemp_l by lia. replace (size + 1 + 2 ^ 63 - 2 ^ 63) with (size + 1) by lia.
      rewrite Z.mod_small by lia. lia.
Qed.
Lemma GL_genD chk d c : goodD d -> vector_ok d -> GL (c_mglobals c) -> pwp (genD chk d) (fun _ c' => GL (c_mglobals c')) c.
Proof.
  intros G V H. destruct (is_function d) eqn:F.
  - destruct d as [| |n ps b]; try discriminate. eapply pwp_mono; [apply function_globals|]. cbv beta.
    intros u c' (c1 & c2 & E1 & _ & [sw Y] & E2 & _). rewrite E2. rewrite <- E1 in H. eapply GL_msteps; [|exact H]. exact (MS_genS chk b None c1 _ _ Y).
  - eapply pwp_mono; [apply variable_globals; auto|]. cbv beta. intros u c' (ws & gs & S & HW & E). rewrite E.
    apply Forall_app. split; [|eapply objects_length; eauto]. eapply strings_GL; [exact S|]. apply GL_remove; auto.
Qed.
Lemma GL_genP chk ds : goodP ds -> Forall vector_ok ds -> forall c, GL (c_mglobals c) -> pwp (genP chk ds) (fun _ c' => GL (c_mglobals c')) c.
Proof.
  intros W. induction W as [|d ds HD W IH]; intros V c H; cbn [genP]; [apply pwp_ret; auto|]. inversion V; subst.
  eapply pwp_use; [auto with pure|apply GL_genD; auto|]. cbv beta. auto.
Qed.
