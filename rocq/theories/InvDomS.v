(** * InvDomS: registers are assigned before they are used, in statements *)
From Coq Require Import List Ascii String ZArith NArith Lia Bool.
From Verif Require Import Base Lexer IR Builder Expr Stmt Decl Wp Syntax Pure Pwp SpecIR SpecSem SpecTree SpecValid SpecSure ParseGen Names InvIR InvDecl InvNames Built InvTerm InvPhi InvDom DriverModes.
Import ListNotations.
Open Scope list_scope.
Open Scope Z_scope.
Open Scope m_scope.

Lemma listed_In x l : listed x l = true -> In x l.
Proof. unfold listed. intros H. apply existsb_exists in H. destruct H as (y & H1 & H2). apply String.eqb_eq in H2. subst. auto. Qed.
Lemma In_listed x l : In x l -> listed x l = true.
Proof. intros H. apply existsb_exists. exists x. split; auto. apply String.eqb_refl. Qed.

(** ** What is sure grows *)
Lemma around_sub B ls D S : incl S D -> (ls <> [] -> forall X, B = Some X -> incl S X) -> incl S (around B ls D).
Proof. intros H1 H2. unfold around. destruct ls as [|a ls]; auto. destruct B as [X|]; auto. apply H2; [discriminate|auto]. Qed.
Lemma sure_mono_all B :
  (forall s keep L D D' S, sureS B keep s L D = Some D' -> incl S D -> (labels s <> [] -> forall X, B = Some X -> incl S X) ->
     (forall k, keep = Some k -> incl S k) -> incl S D') /\
  (forall l keep L D D' S, sureL B keep l L D = Some D' -> incl S D -> (labelsL l <> [] -> forall X, B = Some X -> incl S X) ->
     (forall k, keep = Some k -> incl S k) -> incl S D').
Proof.
  assert (AP : forall a b : list string, a ++ b <> [] -> a <> [] \/ b <> []) by (intros [|] b; cbn; auto; left; discriminate).
  assert (AL : forall a b : list string, a <> [] -> a ++ b <> []) by (intros [|] b; cbn; auto; discriminate).
  assert (AR : forall a b : list string, b <> [] -> a ++ b <> []) by (intros [|] b; cbn; auto; discriminate).
  apply stmt_stmts_ind; cbn [sureS sureL labels labelsL].
  - intros keep L D D' S E. injection E as <-. auto.
  - intros e keep L D D' S E. destruct (usable L D e); [|discriminate]. injection E as <-. auto.
  - auto.
  - intros o keep L D D' S E. destruct o as [e|]; [destruct (usable L D e); [|discriminate]|]; injection E as <-; auto.
  - intros l keep L D D' S E H. injection E as <-. intros _ _. apply incl_appr. auto.
  - intros l keep L D D' S E. injection E as <-. auto.
  - intros e s IH keep L D D' S E H1 H2 H3. destruct (usable L D e); [|discriminate]. destruct (sureS B None s L D); [|discriminate]. injection E as <-. apply around_sub; auto.
  - intros e s1 IH1 s2 IH2 keep L D D' S E H1 H2 H3. destruct (usable L D e); [|discriminate]. destruct (sureS B None s1 L D); [|discriminate].
    destruct (sureS B None s2 _ D); [|discriminate]. injection E as <-. apply around_sub; auto.
  - intros e s IH keep L D D' S E H1 H2 H3. destruct (usable L _ e); [|discriminate]. destruct (sureS B None s L _); [|discriminate]. injection E as <-. apply around_sub; auto.
  - intros e s IH keep L D D' S E H1 H2 H3. destruct (usable L D e); [|discriminate]. destruct (sureS B _ s L _); [|discriminate]. injection E as <-. apply around_sub; auto.
  - intros z s IH keep L D D' S E H1 H2 H3. destruct keep as [k|]; [|discriminate]. eapply IH; eauto.
  - intros n keep L D D' S E H1 H2 H3. destruct B; [|discriminate]. injection E as <-. auto.
  - intros n s IH keep L D D' S E H1 H2 H3. destruct B as [X|]; [|discriminate]. eapply IH; eauto.
    + apply (H2 ltac:(discriminate) X eq_refl).
    + intros _ Y EY. apply H2; auto. discriminate.
  - intros keep L D D' S E. injection E as <-. auto.
  - intros s IH1 l IH2 keep L D D' S E H1 H2 H3. destruct (sureS B keep s L D) as [D1|] eqn:E1; [|discriminate]. eapply IH2; eauto.
Qed.
Definition sure_mono B := proj1 (sure_mono_all B).

(** ** Registers of names *)
Definition regs (c : cstate) (S : list string) (r : nat) : Prop := exists x, In x S /\ assoc x (c_locals c) = Some (VReg r).
Definition stable (c c' : cstate) : Prop := forall x v, assoc x (c_locals c) = Some v -> assoc x (c_locals c') = Some v.
Definition sure (g : ghost) (c : cstate) (D : list string) : Prop := forall x, In x D -> exists v, assoc x (c_locals c) = Some v /\ vav g c v.
Lemma regs_stable c c' S r : stable c c' -> (forall x, In x S -> exists v, assoc x (c_locals c) = Some v) -> regs c S r <-> regs c' S r.
Proof.
  intros HS HD. split; intros (x & H1 & H2); exists x; split; auto. destruct (HD x H1) as (v & E). pose proof (HS x v E). congruence.
Qed.
Lemma regs_avail g c c' S D r : stable c c' -> sure g c' D -> incl S D -> regs c S r -> avail g c' r.
Proof.
  intros HS HD HI (x & H1 & H2). destruct (HD x (HI _ H1)) as (v & E & V). rewrite (HS _ _ H2) in E. injection E as <-. exact V.
Qed.
Definition go (g : ghost) (c : cstate) (g' : ghost) (c' : cstate) : Prop := ext g c g' c' /\ stable c c'.
Lemma stable_refl c : stable c c. Proof. intros x v; auto. Qed.
Lemma stable_eq c c' : c_locals c' = c_locals c -> stable c c'. Proof. intros E x v. rewrite E. auto. Qed.
Lemma stable_trans a b c : stable a b -> stable b c -> stable a c. Proof. intros H1 H2 x v E. auto. Qed.
Lemma go_refl g c : go g c g c. Proof. split; [apply ext_refl|apply stable_refl]. Qed.
Lemma go_trans g c g1 c1 g2 c2 : go g c g1 c1 -> go g1 c1 g2 c2 -> go g c g2 c2.
Proof. intros [] []. split; [eapply ext_trans|eapply stable_trans]; eauto. Qed.
(** Nothing is lost in the current place. *)
Record mv (g : ghost) (c : cstate) (g' : ghost) (c' : cstate) : Prop := {
  m_ext : ext g c g' c'; m_locals : c_locals c' = c_locals c; m_avail : forall r, avail g c r -> avail g' c' r }.
Lemma mv_refl g c : mv g c g c. Proof. constructor; auto using ext_refl. Qed.
Lemma mv_trans g c g1 c1 g2 c2 : mv g c g1 c1 -> mv g1 c1 g2 c2 -> mv g c g2 c2.
Proof. intros [] []. constructor; [eapply ext_trans; eauto|congruence|auto]. Qed.
Lemma mv_step g c g' c' : step g c g' c' -> mv g c g' c'. Proof. intros []. constructor; auto. Qed.
Lemma mv_go g c g' c' : mv g c g' c' -> go g c g' c'. Proof. intros []. split; auto using stable_eq. Qed.
Lemma mv_vav g c g' c' v : mv g c g' c' -> vav g c v -> vav g' c' v. Proof. intros []. apply vav_from. auto. Qed.
Lemma mv_sure g c g' c' D : mv g c g' c' -> sure g c D -> sure g' c' D.
Proof. intros M H x HX. destruct (H x HX) as (v & E & V). exists v. rewrite (m_locals _ _ _ _ M). split; auto. eapply mv_vav; eauto. Qed.

(** A number for a switch. *)
Definition with_key (id : Z) (P : nat -> Prop) (g : ghost) : ghost := mkGhost (gA g) (fun k => if k =? id then P else gK g k).
Lemma DO_key B g c P : DO B g c -> DO B (with_key (c_labelID c) P g) (set_labelID (c_labelID c + 1) c).
Proof.
  intros []. constructor; auto. intros n b H. destruct (DO_labels n b H) as (H1 & Q & H2 & H3). split; auto. exists Q. split; auto.
  destruct H2 as [|(id & z & H4 & H5 & H6)]; [left; auto|right]. exists id, z. split; auto. cbn. split; [lia|]. destruct (Z.eqb_spec id (c_labelID c)); [lia|auto].
Qed.
Lemma mv_key g c P : mv g c (with_key (c_labelID c) P g) (set_labelID (c_labelID c + 1) c).
Proof.
  constructor; auto. constructor; auto; cbn; try lia. intros id H. destruct (Z.eqb_spec id (c_labelID c)); [lia|auto].
Qed.
Lemma mv_id g c : mv g c g (set_labelID (c_labelID c + 1) c).
Proof. apply mv_step, step_same; [repeat split|cbn; lia|reflexivity]. Qed.
Lemma DO_id B g c : DO B g c -> DO B g (set_labelID (c_labelID c + 1) c).
Proof. intros H. apply (DO_same _ _ c); [repeat split|cbn; lia|apply H|auto]. Qed.

(** ** Labels *)
Lemma case_inj id z id' z' : case_name id z = case_name id' z' -> id = id'.
Proof.
  intros H. unfold case_name in H. apply join_inj in H; try discriminate; try (repeat constructor; auto using nodot_dec; apply nodot_b; reflexivity).
  injection H as H _. apply dec_inj. auto.
Qed.
Lemma case_dot id z n : nodot n -> n <> case_name id z.
Proof. intros H E. unfold case_name in E. rewrite join_cons in E. apply (nodot_dot _ "case" (join [dec id; dec z]) H E). Qed.
Lemma lab_unique B g c n P Q : lab B g c n P -> lab B g c n Q -> P = Q.
Proof.
  intros [[H1 H2]|(id & z & H1 & H2 & H3)] [[K1 K2]|(id' & z' & K1 & K2 & K3)]; try congruence.
  - exfalso. eapply case_dot; eauto.
  - exfalso. eapply case_dot; eauto.
  - rewrite H1 in K1. apply case_inj in K1. congruence.
Qed.

Section S.
Variable B : option (nat -> Prop).
Lemma D_label g c n P : DO B g c -> lab B g c n P -> pwp (GetOrCreateLabel n) (fun b c' => exists g', DO B g' c' /\ mv g c g' c' /\ gK g' = gK g /\
  (b < size c')%nat /\ (forall r, gA g' b r <-> P r) /\ c_builder c' = c_builder c /\ c_labelID c' = c_labelID c) c.
Proof.
  intros HD HL. unfold GetOrCreateLabel. apply pwp_bind; [auto with pure|]. apply pwp_get. destruct (assoc n (c_labels c)) as [b|] eqn:E.
  - apply pwp_ret. exists g. apply assoc_In in E. destruct (DO_labels _ _ _ HD _ _ E) as (H1 & Q & H2 & H3).
    rewrite (lab_unique _ _ _ _ _ _ HL H2). split; auto. split; [apply mv_refl|]. auto.
  - eapply pwp_use; [pure_tac|apply (D_NewBlock B g c _ P); auto|]. cbv beta. intros b c1 (g1 & D1 & S1 & E1 & L1 & A1 & K1 & B1 & I1).
    apply pwp_bind; [auto with pure|]. apply pwp_modify. apply pwp_ret. exists g1.
    assert (S2 : mv g1 c1 g1 (set_labels ((n, b) :: c_labels c1) c1)) by (constructor; auto; constructor; auto; cbn; lia).
    split; [|split; [eapply mv_trans; [apply mv_step; exact S1|exact S2]|]].
    + destruct D1. constructor; auto. cbn [c_labels set_labels]. intros m k [X|X]; [|exact (DO_labels m k X)]. injection X as <- <-. split; auto. exists P.
      split; [|rewrite A1; tauto]. destruct HL as [|(id & z & H4 & H5 & H6)]; [left; auto|right]. exists id, z. cbn. rewrite I1, K1. auto.
    + do 2 (split; auto). split; [rewrite A1; tauto|auto].
Qed.
Lemma D_brIfOpen g c b : DO B g c -> (b < size c)%nat -> (forall r, gA g b r -> avail g c r) ->
  pwp (brIfOpen b) (fun _ c' => DO B g c' /\ mv g c g c' /\ size c' = size c) c.
Proof.
  intros HD HB HA. unfold brIfOpen. apply pwp_bind; [auto with pure|]. apply pwp_termIsNil. intros [|] _ _.
  - eapply pwp_mono; [apply (D_setTerm B g c); auto|].
    + intros r [].
    + intros j [<-|[]]. auto.
    + cbv beta. intros _ c' (H1 & H2 & H3 & H4). split; auto. split; auto. apply mv_step. auto.
  - apply pwp_ret. split; auto. split; [apply mv_refl|auto].
Qed.
Lemma D_three {Y} (f : nat -> nat -> nat -> C Y) Q g c n1 n2 n3 P1 P2 P3 : DO B g c ->
  (forall b1 b2 b3 g' c', DO B g' c' -> mv g c g' c' -> gK g' = gK g -> c_labelID c' = c_labelID c -> (b1 < size c')%nat -> (b2 < size c')%nat -> (b3 < size c')%nat ->
     gA g' b1 = P1 -> gA g' b2 = P2 -> gA g' b3 = P3 -> pwp (f b1 b2 b3) Q c') ->
  pwp (b1 <- NewBlock n1 ;; b2 <- NewBlock n2 ;; b3 <- NewBlock n3 ;; f b1 b2 b3) Q c.
Proof.
  intros D0 H.
  eapply pwp_use; [pure_tac|apply (D_NewBlock B g c _ P1); auto|]. cbv beta. intros b1 c2 (g2 & D2 & S2 & E2 & L2 & A2 & K2 & _ & I2).
  eapply pwp_use; [pure_tac|apply (D_NewBlock B g2 c2 _ P2); auto|]. cbv beta. intros b2 c3 (g3 & D3 & S3 & E3 & L3 & A3 & K3 & _ & I3).
  eapply pwp_use; [pure_tac|apply (D_NewBlock B g3 c3 _ P3); auto|]. cbv beta. intros b3 c4 (g4 & D4 & S4 & E4 & L4 & A4 & K4 & _ & I4).
  pose proof (x_size _ _ _ _ (s_ext _ _ _ _ S3)). pose proof (x_size _ _ _ _ (s_ext _ _ _ _ S4)).
  apply (H b1 b2 b3 g4 c4); auto; try congruence; try lia.
  - eapply mv_trans; [apply mv_step; exact S2|]. eapply mv_trans; apply mv_step; eauto.
  - rewrite (x_A _ _ _ _ (s_ext _ _ _ _ S4)), (x_A _ _ _ _ (s_ext _ _ _ _ S3)) by lia; auto.
  - rewrite (x_A _ _ _ _ (s_ext _ _ _ _ S4)) by lia; auto.
Qed.
Definition noname (x : string) : Prop := False.
Lemma Us_none g c : Us noname g c. Proof. intros x v []. Qed.
Lemma D_emitR g c mk : DO B g c -> (forall r, is_phi (mk r) = false /\ assigns (mk r) = [r]) -> (forall r v, In v (operands (mk r)) -> vav g c v) ->
  pwp (emitR mk) (fun v c' => DO B g c' /\ step g c g c' /\ c_builder c' = c_builder c /\ size c' = size c /\ vav g c' v) c.
Proof.
  intros HD HM HO. apply pwp_emitR. destruct (HM (c_nreg c)) as [H1 H2].
  assert (OK : okphi g c (mk (c_nreg c))).
  { specialize (HO (c_nreg c)). destruct (mk (c_nreg c)); try discriminate H1; intros rr HR; apply (HO _ HR). }
  split; [eapply DO_inst; eauto; reflexivity|]. split; [eapply step_inst; reflexivity|]. split; [reflexivity|].
  split; [unfold size; cbn; apply upd_length|]. apply emitted_avail; auto. apply (DO_cur _ _ _ HD).
Qed.
Lemma D_emit g c i : DO B g c -> is_phi i = false -> (forall v, In v (operands i) -> vav g c v) ->
  pwp (emit i) (fun _ c' => DO B g c' /\ step g c g c') c.
Proof.
  intros HD H1 HO. apply pwp_emit.
  assert (OK : okphi g c i) by (destruct i; try discriminate H1; intros rr HR; apply (HO _ HR)).
  split; [eapply DO_inst; eauto; reflexivity|eapply step_inst; reflexivity].
Qed.

(** ** Automatic variables *)
Definition made (n : string) (g : ghost) (c : cstate) (_ : unit) (c' : cstate) : Prop :=
  exists v, DO B g c' /\ ext g c g c' /\ c_locals c' = (n, v) :: c_locals c /\ (forall r, avail g c r -> avail g c' r) /\ vav g c' v.
Lemma made_local n v g c c1 : DO B g c1 -> step g c g c1 -> vav g c1 v -> pwp (bind_local n v) (made n g c) c1.
Proof.
  intros HD S V. apply pwp_bind_local. exists v. split; [apply (DO_same _ _ c1); [repeat split|cbn; lia|apply HD|auto]|].
  split; [eapply ext_trans; [apply (s_ext _ _ _ _ S)|apply ext_same; [repeat split|cbn; lia]]|].
  split; [cbn; rewrite (s_locals _ _ _ _ S); auto|]. split; [apply (s_avail _ _ _ _ S)|exact V].
Qed.
Lemma D_DeclareLocal n g c : DO B g c -> pwp (DeclareLocal n) (made n g c) c.
Proof.
  intros HD. unfold DeclareLocal. eapply pwp_use; [pure_tac|apply (D_emitR g c); auto; intros r v []|]. cbv beta. intros a c1 (D1 & S1 & _ & _ & V1).
  eapply pwp_use; [pure_tac|apply (D_emit g c1); auto|].
  { intros v [<-|[<-|[]]]; auto. exact I. }
  cbv beta. intros _ c2 (D2 & S2). apply made_local; auto; [eapply step_trans; eauto|]. eapply vav_step; eauto.
Qed.
Lemma D_DeclareLocalArray n z g c : DO B g c -> pwp (DeclareLocalArray n z) (made n g c) c.
Proof.
  intros HD. unfold DeclareLocalArray. cbv zeta.
  eapply pwp_use; [pure_tac|apply (D_emitR g c); auto; intros r v []|]. cbv beta. intros a c1 (D1 & S1 & _ & _ & V1).
  eapply pwp_use; [pure_tac|apply (D_emitR g c1); auto; intros r v [<-|[]]; auto|]. cbv beta. intros e c2 (D2 & S2 & _ & _ & V2).
  eapply pwp_use; [pure_tac|apply (D_emitR g c2); auto; intros r v [<-|[]]; auto|]. cbv beta. intros p c3 (D3 & S3 & _ & _ & V3).
  assert (V1' : vav g c3 a) by (eapply vav_step; [exact S3|]; eapply vav_step; eauto).
  eapply pwp_use; [pure_tac|apply (D_emitR g c3); auto; intros r v [<-|[]]; auto|]. cbv beta. intros q c4 (D4 & S4 & _ & _ & V4).
  assert (V3' : vav g c4 p) by (eapply vav_step; eauto).
  eapply pwp_use; [pure_tac|apply (D_emit g c4); auto|].
  { intros v [<-|[<-|[]]]; auto. }
  cbv beta. intros _ c5 (D5 & S5). apply made_local; auto; [|eapply vav_step; eauto].
  eapply step_trans; [exact S1|]. eapply step_trans; [exact S2|]. eapply step_trans; [exact S3|]. eapply step_trans; eauto.
Qed.
Definition autos_made (l : list string) (g : ghost) (c : cstate) (_ : unit) (c' : cstate) : Prop :=
  DO B g c' /\ ext g c g c' /\ (forall r, avail g c r -> avail g c' r) /\
  (forall x, ~ In x l -> assoc x (c_locals c') = assoc x (c_locals c)) /\
  (forall x, In x l -> exists v, assoc x (c_locals c') = Some v /\ vav g c' v).
Lemma D_declareAutos l g : forall c, DO B g c -> pwp (declareAutos l) (autos_made (map fst l) g c) c.
Proof.
  induction l as [|[n z] l IH]; intros c HD; cbn [declareAutos map fst].
  - apply pwp_ret. split; auto. split; [apply ext_refl|]. split; auto. split; auto. intros x [].
  - assert (K : pwp (if z =? -1 then DeclareLocal n else DeclareLocalArray n z) (made n g c) c).
    { destruct (z =? -1); [apply D_DeclareLocal|apply D_DeclareLocalArray]; auto. }
    eapply pwp_use; [pure_tac|exact K|]. cbv beta. intros _ c1 (v & D1 & X1 & E1 & M1 & V1).
    eapply pwp_mono; [apply (IH c1); auto|]. cbv beta. intros u2 c2 (D2 & X2 & M2 & N2 & I2).
    split; auto. split; [eapply ext_trans; eauto|]. split; [auto|]. split.
    + intros x HX. cbn in HX. rewrite N2 by tauto. rewrite E1. cbn. destruct (String.eqb_spec x n); [subst; tauto|auto].
    + intros x HX. destruct (in_dec string_dec x (map fst l)) as [Y|Y]; [auto|]. destruct HX as [<-|HX]; [|tauto].
      exists v. rewrite N2, E1 by auto. cbn. rewrite String.eqb_refl. split; auto. eapply vav_from; eauto.
Qed.
Lemma D_checkAutos l : forall (seen : list string) c, pwp (checkAutos seen l) (fun _ c' => c' = c /\ forall x, In x (map fst l) -> assoc x (c_locals c) = None) c.
Proof.
  induction l as [|[n z] l IH]; intros seen c; cbn [checkAutos map fst].
  - apply pwp_ret. split; auto. intros x [].
  - apply pwp_bind; [auto with pure|]. apply pwp_get. destruct (mem n seen); [apply pwp_err|]. destruct (mem n (map fst (c_locals c))) eqn:E; [apply pwp_err|].
    eapply pwp_mono; [apply IH|]. cbv beta. intros _ c' [-> H]. split; auto. intros x [<-|HX]; auto.
    destruct (assoc n (c_locals c)) as [v|] eqn:EA; auto. apply assoc_In in EA. exfalso.
    assert (X : mem n (map fst (c_locals c)) = true); [|congruence]. unfold mem. apply existsb_exists. exists n. split; [|apply String.eqb_refl].
    apply in_map_iff. exists (n, v). auto.
Qed.

(** ** Statements *)
Variable chk : bool.
Record pre (Xo keep : option (list string)) (sw : swctx) (L D : list string) (g : ghost) (c : cstate) : Prop := {
  p_do : DO B g c;
  p_sure : sure g c D;
  p_loc : forall x v, assoc x (c_locals c) = Some v -> In x L;
  p_base : match Xo, B with Some X, Some Bs => incl X D /\ forall r, Bs r <-> regs c X r | None, None => True | _, _ => False end;
  p_keep : match keep with
    | Some k => incl k D /\ (forall X, Xo = Some X -> incl X k) /\
        exists id vals, sw = Some (id, vals) /\ id < c_labelID c /\ forall r, gK g id r <-> regs c k r
    | None => True
    end
}.
Definition post (Xo keep : option (list string)) (L D : list string) (g : ghost) (c : cstate) (sw' : swctx) (c' : cstate) : Prop :=
  exists g', pre Xo keep sw' L D g' c' /\ go g c g' c'.
Lemma sure_dom g c D : sure g c D -> forall x, In x D -> exists v, assoc x (c_locals c) = Some v.
Proof. intros H x HX. destruct (H x HX) as (v & E & _). eauto. Qed.
(** Going to another place. *)
Lemma pre_move Xo keep keep' sw sw' L L' D De g c g' c' :
  pre Xo keep sw L D g c -> DO B g' c' -> go g c g' c' -> (forall x v, assoc x (c_locals c') = Some v -> In x L') ->
  incl De D -> (forall X, Xo = Some X -> incl X De) -> (forall r, regs c De r -> avail g' c' r) ->
  (keep' = None \/ (keep' = keep /\ sw' = sw /\ forall k, keep = Some k -> incl k De)) ->
  pre Xo keep' sw' L' De g' c'.
Proof.
  intros [] HD [HX HS] HL HI HB HA HK.
  assert (DM : forall S, incl S D -> forall x, In x S -> exists v, assoc x (c_locals c) = Some v) by (intros S HSD x Hx; eapply sure_dom; eauto).
  constructor; auto.
  - intros x Hx. destruct (DM De HI x Hx) as (v & E). exists v. split; [apply HS; auto|]. destruct v; cbn; auto. apply HA. exists x. auto.
  - destruct Xo as [X|], B as [Bs|]; auto. destruct p_base0 as [P1 P2]. split; auto. intros r. rewrite P2. apply regs_stable; [auto|apply DM; auto].
  - destruct HK as [->|(-> & -> & HK)]; auto. destruct keep as [k|]; auto. destruct p_keep0 as (P1 & P2 & id & vals & P3 & P4 & P5). split; auto. split; auto.
    exists id, vals. split; auto. split; [pose proof (x_id _ _ _ _ HX); lia|]. intros r. rewrite (x_K _ _ _ _ HX) by auto. rewrite P5. apply regs_stable; [auto|apply DM; auto].
Qed.
Lemma pre_mv Xo keep sw L D g c g' c' : pre Xo keep sw L D g c -> DO B g' c' -> mv g c g' c' -> pre Xo keep sw L D g' c'.
Proof.
  intros HP HD M. eapply pre_move; eauto.
  - apply mv_go. auto.
  - rewrite (m_locals _ _ _ _ M). apply HP.
  - apply incl_refl.
  - intros X ->. destruct HP. destruct B; [|contradiction]. destruct p_base0. auto.
  - intros r HR. apply (m_avail _ _ _ _ M). eapply regs_avail; eauto using stable_refl, incl_refl. apply HP.
  - right. split; auto. split; auto. intros k ->. destruct HP. tauto.
Qed.
Lemma pre_none Xo keep sw L D g c sw' : pre Xo keep sw L D g c -> pre Xo None sw' L D g c.
Proof. intros []. constructor; auto. Qed.
Lemma usable_U L D e g c : usable L D e = true -> sure g c D -> (forall x v, assoc x (c_locals c) = Some v -> In x L) -> Us (fun x => In x (evars e)) g c.
Proof.
  intros HU HS HL x v HX E. unfold usable in HU. rewrite forallb_forall in HU. specialize (HU x HX).
  rewrite (In_listed x L) in HU by eauto. cbn in HU. destruct (HS x (listed_In _ _ HU)) as (w & E2 & V). congruence.
Qed.
Lemma D_genR q Xo keep sw L D e g c : pre Xo keep sw L D g c -> usable L D e = true ->
  pwp (genR chk q e) (fun v c' => exists g', pre Xo keep sw L D g' c' /\ mv g c g' c' /\ vav g' c' v) c.
Proof.
  intros HP HU. pose proof HP as []. pose proof (usable_U L D e g c HU p_sure0 p_loc0) as US. unfold genR.
  eapply pwp_use; [pure_tac|apply (proj1 (ek_gen_all B (fun x => In x (evars e)) chk) e (fun x H => H) [] q g c); auto|].
  cbv beta. intros [v l] c1 (g1 & D1 & S1 & V1). unfold val1 in V1. cbn [fst] in V1.
  eapply pwp_mono; [apply (ek_rval B (fun x => In x (evars e)) [v] v l (or_introl eq_refl) g1 c1); auto; eapply Us_step; eauto|].
  cbv beta. intros w c2 (g2 & D2 & S2 & V2). inversion V2; subst. exists g2.
  assert (M : mv g c g2 c2) by (eapply mv_trans; apply mv_step; eauto).
  split; [eapply pre_mv; eauto|]. auto.
Qed.
Lemma pre_loc_app Xo keep sw L L' D g c : pre Xo keep sw L D g c -> pre Xo keep sw (L ++ L') D g c.
Proof. intros []. constructor; auto. intros x v E. apply in_or_app. left. eauto. Qed.
Lemma base_in Xo keep sw L D g c X : pre Xo keep sw L D g c -> Xo = Some X -> incl X D.
Proof. intros [] ->. destruct B; [|contradiction]. tauto. Qed.
Lemma keep_in Xo keep sw L D g c k : pre Xo keep sw L D g c -> keep = Some k -> incl k D.
Proof. intros [] ->. tauto. Qed.
Lemma around_in Xo ls D : (forall X, Xo = Some X -> incl X D) -> incl (around Xo ls D) D.
Proof. intros H. unfold around. destruct ls; [apply incl_refl|]. destruct Xo; [auto|apply incl_refl]. Qed.
Lemma around_base Xo ls D X : Xo = Some X -> incl X D -> incl X (around Xo ls D).
Proof. intros -> H. unfold around. destruct ls; auto. apply incl_refl. Qed.

Definition hk (ls : list string) (Xo keep : option (list string)) : Prop := ls <> [] -> forall k X, keep = Some k -> Xo = Some X -> incl k X.
Definition SQ (s : stmt) : Prop := forall Xo keep sw L D D' g c, goodS s -> sureS Xo keep s L D = Some D' -> hk (labels s) Xo keep ->
  pre Xo keep sw L D g c -> pwp (genS chk s sw) (post Xo keep (L ++ autos s) D' g c) c.
Definition LQ (l : stmts) : Prop := forall Xo keep sw L D D' g c, goodL l -> sureL Xo keep l L D = Some D' -> hk (labelsL l) Xo keep ->
  pre Xo keep sw L D g c -> pwp (genL chk l sw) (post Xo keep (L ++ autosL l) D' g c) c.
Lemma hk_none ls Xo : hk ls Xo None. Proof. intros H k X E. discriminate. Qed.
Lemma around_keep ls Xo keep D k : hk ls Xo keep -> keep = Some k -> incl k D -> incl k (around Xo ls D).
Proof. intros H E HI. apply around_sub; [auto|]. intros HN X EX. apply (H HN); auto. Qed.

(** A condition and the statements it chooses between. *)
Lemma S_if {Y} s1 (K : nat -> C Y) e Xo keep sw L D D1 De g c Q :
  SQ s1 -> goodS s1 -> usable L D e = true -> sureS Xo None s1 L D = Some D1 -> incl De D1 ->
  pre Xo keep sw L D g c ->
  (forall b g' c', pre Xo None None (L ++ autos s1) D g' c' -> go g c g' c' -> (b < size c')%nat -> gA g' b = regs c De -> pwp (K b) Q c') ->
  pwp (cond <- genR chk false e ;;
      id <- nextLabelID ;;
      bThen <- NewBlock ("if." ++ dec id ++ ".then") ;;
      bElse <- NewBlock ("if." ++ dec id ++ ".else") ;;
      bEnd <- NewBlock ("if." ++ dec id ++ ".end") ;;
      cmp <- emitR (fun r => ICmp r PNE cond (VInt 0)) ;;
      setTerm (TCondBr cmp bThen bElse) ;;;
      SetInsertPoint bThen ;;;
      genS chk s1 None ;;;
      brIfOpen bEnd ;;;
      SetInsertPoint bElse ;;;
      K bEnd) Q c.
Proof.
  intros H1 HG HU HS HI1 HP HT.
  eapply pwp_use; [pure_tac|eapply D_genR; eauto|]. cbv beta. intros cond c0 (g0 & P0 & M0 & V0).
  apply pwp_bind; [pure_tac|]. apply pwp_nextLabelID. set (c1 := set_labelID _ c0).
  assert (D1' : DO B g0 c1) by (apply DO_id; apply P0). assert (M1 : mv g0 c0 g0 c1) by (apply mv_id). clearbody c1.
  apply (D_three _ _ g0 c1 _ _ _ (avail g0 c0) (avail g0 c0) (regs c De)); auto.
  intros bt be bn g2 c2 D2 M2 K2 _ Lt Le Ln At Ae An.
  assert (M02 : mv g0 c0 g2 c2) by (eapply mv_trans; eauto).
  eapply pwp_use; [pure_tac|apply (D_emitR g2 c2); auto|].
  { intros r v [<-|[<-|[]]]; [|exact I]. eapply mv_vav; eauto. }
  cbv beta. intros cmp c3 (D3 & S3 & _ & Z3 & V3).
  assert (M03 : mv g0 c0 g2 c3) by (eapply mv_trans; [exact M02|apply mv_step; auto]).
  eapply pwp_use; [pure_tac|apply (D_setTerm B g2 c3 (TCondBr cmp bt be)); auto|].
  { intros r [->|[]]. exact V3. }
  { rewrite Z3. intros j [<-|[<-|[]]]; (split; [auto|]); rewrite ?At, ?Ae; apply (m_avail _ _ _ _ M03). }
  cbv beta. intros _ c4 (D4 & S4 & _ & Z4).
  assert (M04 : mv g0 c0 g2 c4) by (eapply mv_trans; [exact M03|apply mv_step; auto]).
  rewrite Z3 in Z4.
  eapply pwp_use; [pure_tac|apply (D_insert B g2 c4 bt); auto; rewrite Z4; auto|].
  cbv beta. intros _ c5 (D5 & X5 & E5 & _ & _ & Z5 & A5).
  assert (G05 : go g0 c0 g2 c5) by (eapply go_trans; [apply mv_go; exact M04|split; [exact X5|apply stable_eq; auto]]).
  assert (LC5 : c_locals c5 = c_locals c0) by (rewrite E5; apply (m_locals _ _ _ _ M04)).
  assert (RA0 : forall S r, incl S D -> regs c0 S r -> avail g0 c0 r) by (intros S r HSD; eapply regs_avail; eauto using stable_refl; apply P0).
  assert (P5 : pre Xo None None L D g2 c5).
  { eapply pre_move; [exact P0|auto|auto|rewrite LC5; apply P0|apply incl_refl|intros X; eapply base_in; eauto| |left; auto].
    intros r HR. apply A5. rewrite At. eauto using incl_refl. }
  eapply pwp_use; [pure_tac|eapply (H1 Xo None None); eauto using hk_none|]. cbv beta. intros sw1 c6 (g6 & P6 & G6).
  assert (Z26 : forall k, (k < size c2)%nat -> (k < size c5)%nat /\ (k < size c6)%nat) by (intros; destruct G6 as [G6 _]; pose proof (x_size _ _ _ _ G6); lia).
  assert (A26 : forall k, (k < size c2)%nat -> gA g6 k = gA g2 k) by (intros k HKL; apply (x_A _ _ _ _ (proj1 G6)); apply Z26; auto).
  assert (STc : stable c c6) by (eapply stable_trans; [apply stable_eq; rewrite LC5; apply (m_locals _ _ _ _ M0)|apply G6]).
  eapply pwp_use; [pure_tac|apply (D_brIfOpen g6 c6 bn); [apply P6|apply Z26; auto|]|].
  { rewrite A26, An by auto. intros r HR. eapply regs_avail; eauto. apply P6. }
  cbv beta. intros _ c7 (D7 & M7 & Z7).
  eapply pwp_use; [pure_tac|apply (D_insert B g6 c7 be); auto; rewrite Z7; apply Z26; auto|].
  cbv beta. intros _ c8 (D8 & X8 & E8 & _ & _ & Z8 & A8).
  assert (G68 : go g6 c6 g6 c8) by (eapply go_trans; [apply mv_go; exact M7|split; [exact X8|apply stable_eq; auto]]).
  assert (G08 : go g0 c0 g6 c8) by (eapply go_trans; [exact G05|eapply go_trans; eauto]).
  assert (G8 : go g c g6 c8) by (eapply go_trans; [apply mv_go; exact M0|exact G08]).
  apply (HT bn g6 c8); auto.
  - eapply pre_move; [exact P0|auto|exact G08| |apply incl_refl|intros X; eapply base_in; eauto| |left; auto].
    + rewrite E8, (m_locals _ _ _ _ M7). apply P6.
    + intros r HR. apply A8. rewrite A26, Ae by auto. eauto using incl_refl.
  - rewrite Z8, Z7. apply Z26. auto.
  - rewrite A26, An by auto. auto.
Qed.
(** The end of a statement that can be passed around. *)
Lemma S_end Xo keep sw L L' D De g c b g' c' : pre Xo keep sw L D g c -> incl De D -> (forall X, Xo = Some X -> incl X De) -> (forall k, keep = Some k -> incl k De) ->
  DO B g' c' -> go g c g' c' -> (b < size c')%nat -> gA g' b = regs c De -> (forall x v, assoc x (c_locals c') = Some v -> In x L') ->
  pwp (SetInsertPoint b ;;; ret sw) (post Xo keep L' De g c) c'.
Proof.
  intros HP HI HX HK HD HG HB HA HL. eapply pwp_use; [pure_tac|apply (D_insert B g' c' b); auto|]. cbv beta. intros _ c2 (D2 & X2 & E2 & _ & _ & _ & A2).
  apply pwp_ret. exists g'. assert (G2 : go g c g' c2) by (eapply go_trans; [exact HG|split; [exact X2|apply stable_eq; auto]]). split; auto.
  eapply pre_move; [exact HP|auto|exact G2|rewrite E2; auto|exact HI|exact HX| |right; auto].
  intros r HR. apply A2. rewrite HA. auto.
Qed.
Lemma S_while e s1 Xo keep sw L D D1 D2 g c : SQ s1 -> goodS s1 -> D1 = around Xo (labels s1) D -> usable L D1 e = true -> sureS Xo None s1 L D1 = Some D2 ->
  hk (labels s1) Xo keep -> pre Xo keep sw L D g c -> pwp (genS chk (SWhile e s1) sw) (post Xo keep (L ++ autos s1) D1 g c) c.
Proof.
  intros H1 HG ED HU HS HH HP. cbn [genS].
  assert (HI : incl D1 D) by (subst D1; apply around_in; intros X; eapply base_in; eauto).
  assert (HX : forall X, Xo = Some X -> incl X D1) by (intros X EX; subst D1; eapply around_base; eauto; eapply base_in; eauto).
  assert (HK : forall k, keep = Some k -> incl k D1) by (intros k EK; subst D1; eapply around_keep; eauto; eapply keep_in; eauto).
  assert (HI2 : incl D1 D2).
  { eapply sure_mono; [exact HS|apply incl_refl| |discriminate]. intros HN X EX. subst D1. unfold around. destruct (labels s1); [contradiction|]. rewrite EX. apply incl_refl. }
  apply pwp_bind; [pure_tac|]. apply pwp_nextLabelID. set (c1 := set_labelID _ c).
  assert (D1' : DO B g c1) by (apply DO_id; apply HP). assert (M1 : mv g c g c1) by (apply mv_id). clearbody c1.
  apply (D_three _ _ g c1 _ _ _ (regs c D1) (regs c D1) (regs c D1)); auto.
  intros bc bb bn g2 c2 DD2 M2 K2 _ Lc Lb Ln Ac Ab An.
  assert (M02 : mv g c g2 c2) by (eapply mv_trans; eauto).
  assert (RA : forall r, regs c D1 r -> avail g2 c2 r) by (intros r HR; apply (m_avail _ _ _ _ M02); eapply regs_avail; [apply stable_refl|apply HP|exact HI|exact HR]).
  eapply pwp_use; [pure_tac|apply (D_setTerm B g2 c2 (TBr bc)); auto|].
  { intros r []. }
  { intros j [<-|[]]. split; [auto|]. rewrite Ac. auto. }
  cbv beta. intros _ c3 (D3 & S3 & _ & Z3).
  eapply pwp_use; [pure_tac|apply (D_insert B g2 c3 bc); auto; rewrite Z3; auto|].
  cbv beta. intros _ c4 (D4 & X4 & E4 & _ & _ & Z4 & A4).
  assert (M03 : mv g c g2 c3) by (eapply mv_trans; [exact M02|apply mv_step; auto]).
  assert (G04 : go g c g2 c4) by (eapply go_trans; [apply mv_go; exact M03|split; [exact X4|apply stable_eq; auto]]).
  assert (LC4 : c_locals c4 = c_locals c) by (rewrite E4; apply (m_locals _ _ _ _ M03)).
  assert (P4 : pre Xo None None L D1 g2 c4).
  { eapply pre_move; [exact HP|auto|auto|rewrite LC4; apply HP|exact HI|exact HX| |left; auto]. intros r HR. apply A4. rewrite Ac. auto. }
  eapply pwp_use; [pure_tac|eapply D_genR; eauto|]. cbv beta. intros cond c5 (g5 & P5 & M5 & V5).
  assert (A25 : forall k, (k < size c2)%nat -> (k < size c5)%nat /\ gA g5 k = gA g2 k).
  { intros k HKL. pose proof (x_size _ _ _ _ (m_ext _ _ _ _ M5)). split; [lia|]. apply (x_A _ _ _ _ (m_ext _ _ _ _ M5)). lia. }
  eapply pwp_use; [pure_tac|apply (D_emitR g5 c5); [apply P5|auto|]|].
  { intros r v [<-|[<-|[]]]; [auto|exact I]. }
  cbv beta. intros cmp c6 (D6 & S6 & _ & Z6 & V6).
  assert (STc : stable c c5) by (eapply stable_trans; [apply G04|apply mv_go in M5; apply M5]).
  assert (RA6 : forall r, regs c D1 r -> avail g5 c6 r).
  { intros r HR. apply (s_avail _ _ _ _ S6). eapply regs_avail; [exact STc|apply P5|apply incl_refl|exact HR]. }
  eapply pwp_use; [pure_tac|apply (D_setTerm B g5 c6 (TCondBr cmp bb bn)); auto|].
  { intros r [->|[]]. exact V6. }
  { rewrite Z6. intros j [<-|[<-|[]]]; (split; [apply A25; auto|]); [rewrite (proj2 (A25 _ Lb)), Ab|rewrite (proj2 (A25 _ Ln)), An]; auto. }
  cbv beta. intros _ c7 (D7 & S7 & _ & Z7). rewrite Z6 in Z7.
  eapply pwp_use; [pure_tac|apply (D_insert B g5 c7 bb); auto; rewrite Z7; apply A25; auto|].
  cbv beta. intros _ c8 (D8 & X8 & E8 & _ & _ & Z8 & A8). rewrite Z7 in Z8.
  assert (M57 : mv g5 c5 g5 c7) by (eapply mv_trans; apply mv_step; eauto).
  assert (G58 : go g5 c5 g5 c8) by (eapply go_trans; [apply mv_go; exact M57|split; [exact X8|apply stable_eq; auto]]).
  assert (G08 : go g c g5 c8) by (eapply go_trans; [exact G04|eapply go_trans; [apply mv_go; exact M5|exact G58]]).
  assert (P8 : pre Xo None None L D1 g5 c8).
  { eapply pre_move; [exact HP|auto|exact G08| |exact HI|exact HX| |left; auto].
    - rewrite E8, (m_locals _ _ _ _ M57). apply P5.
    - intros r HR. apply A8. rewrite (proj2 (A25 _ Lb)), Ab. auto. }
  eapply pwp_use; [pure_tac|eapply (H1 Xo None None); eauto using hk_none|]. cbv beta. intros sw1 c9 (g9 & P9 & G9).
  assert (A29 : forall k, (k < size c2)%nat -> (k < size c9)%nat /\ gA g9 k = gA g2 k).
  { intros k HKL. destruct (A25 k HKL) as [Y1 Y2]. pose proof (x_size _ _ _ _ (proj1 G9)). split; [lia|]. rewrite (x_A _ _ _ _ (proj1 G9)) by lia. auto. }
  assert (G09 : go g c g9 c9) by (eapply go_trans; eauto).
  eapply pwp_use; [pure_tac|apply (D_brIfOpen g9 c9 bc); [apply P9|apply A29; auto|]|].
  { rewrite (proj2 (A29 _ Lc)), Ac. intros r HR. eapply regs_avail; [apply G09|apply P9|exact HI2|exact HR]. }
  cbv beta. intros _ c10 (D10 & M10 & Z10).
  eapply S_end; eauto.
  - eapply go_trans; [exact G09|apply mv_go; auto].
  - rewrite Z10. apply A29. auto.
  - rewrite (proj2 (A29 _ Ln)), An. auto.
  - rewrite (m_locals _ _ _ _ M10). apply P9.
Qed.
Lemma D_switchCases id P l : forall g c, DO B g c -> id < c_labelID c -> gK g id = P -> pwp (switchCases id l) (fun bs c' => exists g', DO B g' c' /\ mv g c g' c' /\
  forall z b, In (z, b) bs -> (b < size c')%nat /\ forall r, gA g' b r -> P r) c.
Proof.
  induction l as [|z l IH]; intros g c HD HI HP; cbn [switchCases].
  - apply pwp_ret. exists g. split; auto. split; [apply mv_refl|]. intros z b [].
  - eapply pwp_use; [pure_tac|apply (D_label g c (case_name id z) P); auto|].
    { right. exists id, z. auto. }
    cbv beta. intros b c1 (g1 & D1 & M1 & K1 & L1 & A1 & _ & I1).
    eapply pwp_use; [pure_tac|apply (IH g1 c1); auto; [lia|congruence]|]. cbv beta. intros bs c2 (g2 & D2 & M2 & A2). apply pwp_ret.
    exists g2. split; auto. split; [eapply mv_trans; eauto|]. intros z' b' [E|HB]; [|eauto]. injection E as <- <-.
    pose proof (x_size _ _ _ _ (m_ext _ _ _ _ M2)). split; [lia|]. intros r. rewrite (x_A _ _ _ _ (m_ext _ _ _ _ M2)) by auto. apply A1.
Qed.
Lemma S_switch e s1 Xo keep sw L D D1 D2 g c : SQ s1 -> goodS s1 -> D1 = around Xo (labels s1) D -> usable L D e = true -> sureS Xo (Some D1) s1 L D1 = Some D2 ->
  hk (labels s1) Xo keep -> pre Xo keep sw L D g c -> pwp (genS chk (SSwitch e s1) sw) (post Xo keep (L ++ autos s1) D1 g c) c.
Proof.
  intros H1 HG ED HU HS HH HP. cbn [genS].
  assert (HI : incl D1 D) by (subst D1; apply around_in; intros X; eapply base_in; eauto).
  assert (HX : forall X, Xo = Some X -> incl X D1) by (intros X EX; subst D1; eapply around_base; eauto; eapply base_in; eauto).
  assert (HK : forall k, keep = Some k -> incl k D1) by (intros k EK; subst D1; eapply around_keep; eauto; eapply keep_in; eauto).
  assert (HB : labels s1 <> [] -> forall X, Xo = Some X -> incl D1 X).
  { intros HN X EX. subst D1. unfold around. destruct (labels s1); [contradiction|]. rewrite EX. apply incl_refl. }
  assert (HI2 : incl D1 D2).
  { eapply sure_mono; [exact HS|apply incl_refl|exact HB|]. intros k E. injection E as <-. apply incl_refl. }
  apply pwp_bind; [pure_tac|]. apply pwp_nextLabelID. set (id := c_labelID c).
  pose proof (DO_key B g c (regs c D1) (p_do _ _ _ _ _ _ _ HP)) as DK. pose proof (mv_key g c (regs c D1)) as MK. fold id in DK, MK.
  set (c1 := set_labelID _ c) in *. set (g1 := with_key id (regs c D1) g) in *.
  assert (KI : gK g1 id = regs c D1) by (cbn; rewrite Z.eqb_refl; auto).
  assert (LI : id < c_labelID c1) by (cbn; unfold id; lia). clearbody c1 g1.
  assert (P1 : pre Xo keep sw L D g1 c1) by (eapply pre_mv; eauto).
  eapply pwp_use; [pure_tac|eapply D_genR; eauto|]. cbv beta. intros v c2 (g2 & P2 & M2 & V2).
  assert (M02 : mv g c g2 c2) by (eapply mv_trans; eauto).
  apply (D_three _ _ g2 c2 _ _ _ (regs c D1) (avail g2 c2) (regs c D1)); [apply P2|].
  intros bs bc bn g3 c3 D3 M3 K3 I3 Ls Lc Ln As Ac An.
  eapply pwp_use; [pure_tac|apply (D_setTerm B g3 c3 (TBr bc)); auto|].
  { intros r []. }
  { intros j [<-|[]]. split; [auto|]. rewrite Ac. apply (m_avail _ _ _ _ M3). }
  cbv beta. intros _ c4 (D4 & S4 & _ & Z4).
  eapply pwp_use; [pure_tac|apply (D_insert B g3 c4 bs); auto; rewrite Z4; auto|].
  cbv beta. intros _ c5 (D5 & X5 & E5 & _ & _ & Z5 & A5). rewrite Z4 in Z5.
  assert (M04 : mv g c g3 c4) by (eapply mv_trans; [exact M02|eapply mv_trans; [exact M3|apply mv_step; auto]]).
  assert (G05 : go g c g3 c5) by (eapply go_trans; [apply mv_go; exact M04|split; [exact X5|apply stable_eq; auto]]).
  assert (LC5 : c_locals c5 = c_locals c) by (rewrite E5; apply (m_locals _ _ _ _ M04)).
  assert (KG : gK g3 id = regs c D1) by (rewrite K3, (x_K _ _ _ _ (m_ext _ _ _ _ M2)); auto).
  assert (LG : id < c_labelID c5).
  { pose proof (x_id _ _ _ _ (m_ext _ _ _ _ M2)). pose proof (x_id _ _ _ _ (m_ext _ _ _ _ M3)). pose proof (x_id _ _ _ _ (s_ext _ _ _ _ S4)). pose proof (x_id _ _ _ _ X5). lia. }
  assert (P5 : pre Xo (Some D1) (Some (id, [])) L D1 g3 c5).
  { assert (P5 : pre Xo None None L D1 g3 c5).
    { eapply pre_move; [exact HP|auto|auto|rewrite LC5; apply HP|exact HI|exact HX| |left; auto]. intros r HR. apply A5. rewrite As. auto. }
    destruct P5. constructor; auto. split; [apply incl_refl|]. split; auto. exists id, []. split; auto. split; auto. intros r. rewrite KG. unfold regs. rewrite LC5. tauto. }
  eapply pwp_use; [pure_tac|eapply (H1 Xo (Some D1) (Some (id, []))); eauto|].
  { intros HN k X E EX. injection E as <-. auto. }
  cbv beta. intros sw' c6 (g6 & P6 & G6).
  assert (A36 : forall k, (k < size c3)%nat -> (k < size c6)%nat /\ gA g6 k = gA g3 k).
  { intros k HKL. pose proof (x_size _ _ _ _ (proj1 G6)). split; [lia|]. apply (x_A _ _ _ _ (proj1 G6)). lia. }
  assert (G06 : go g c g6 c6) by (eapply go_trans; eauto).
  eapply pwp_use; [pure_tac|apply (D_brIfOpen g6 c6 bn); [apply P6|apply A36; auto|]|].
  { rewrite (proj2 (A36 _ Ln)), An. intros r HR. eapply regs_avail; [apply G06|apply P6|exact HI2|exact HR]. }
  cbv beta. intros _ c7 (D7 & M7 & Z7).
  eapply pwp_use; [pure_tac|apply (D_insert B g6 c7 bc); auto; rewrite Z7; apply A36; auto|].
  cbv beta. intros _ c8 (D8 & X8 & E8 & _ & _ & Z8 & A8). rewrite Z7 in Z8.
  assert (G68 : go g6 c6 g6 c8) by (eapply go_trans; [apply mv_go; exact M7|split; [exact X8|apply stable_eq; auto]]).
  assert (LI8 : id < c_labelID c8 /\ gK g6 id = regs c D1).
  { pose proof (x_id _ _ _ _ (proj1 G6)). pose proof (x_id _ _ _ _ (proj1 G68)). split; [lia|]. rewrite (x_K _ _ _ _ (proj1 G6)); auto. }
  assert (AV : forall r, avail g2 c2 r -> avail g6 c8 r) by (intros r HR; apply A8; rewrite (proj2 (A36 _ Lc)), Ac; auto).
  assert (V8 : vav g6 c8 v) by (eapply vav_from; eauto).
  assert (R8 : forall r, regs c D1 r -> avail g6 c8 r).
  { intros r HR. apply AV. eapply regs_avail; [|apply P2|exact HI|exact HR]. apply stable_eq. apply (m_locals _ _ _ _ M02). }
  match goal with |- pwp (bind ?m _) _ _ => assert (K : pwp m (fun _ c' => exists g', DO B g' c' /\ mv g6 c8 g' c') c8) end.
  { assert (N8 : (bn < size c8)%nat) by (rewrite Z8; apply A36; auto).
    assert (KB : pwp (setTerm (TBr bn)) (fun _ c' => exists g', DO B g' c' /\ mv g6 c8 g' c') c8).
    { eapply pwp_mono; [apply (D_setTerm B g6 c8 (TBr bn)); auto|].
      - intros r [].
      - intros j [<-|[]]. split; [auto|]. rewrite (proj2 (A36 _ Ln)), An. auto.
      - cbv beta. intros _ c9 (Q1 & Q2 & _ & _). exists g6. split; auto. apply mv_step. auto. }
    destruct P6 as [_ _ _ _ (_ & _ & id' & vals & -> & _ & _)]. destruct vals as [|z vals]; auto.
    eapply pwp_use; [pure_tac|apply (D_switchCases id (regs c D1) (z :: vals) g6 c8); auto; tauto|]. cbv beta. intros cs c9 (g9 & D9 & M9 & A9).
    pose proof (x_size _ _ _ _ (m_ext _ _ _ _ M9)).
    eapply pwp_mono; [apply (D_setTerm B g9 c9 (TSwitch v bn cs)); auto|].
    - intros r [->|[]]. exact (m_avail _ _ _ _ M9 _ V8).
    - cbn [successors]. intros j [<-|HJ].
      + split; [lia|]. intros r. rewrite (x_A _ _ _ _ (m_ext _ _ _ _ M9)) by auto. rewrite (proj2 (A36 _ Ln)), An. intros HR. apply (m_avail _ _ _ _ M9). auto.
      + apply in_map_iff in HJ. destruct HJ as ([z' b'] & E & HJ). cbn in E. subst b'. destruct (A9 _ _ HJ) as [Y1 Y2]. split; auto.
        intros r HR. apply (m_avail _ _ _ _ M9). auto.
    - cbv beta. intros _ c10 (Q1 & Q2 & _ & _). exists g9. split; auto. eapply mv_trans; [exact M9|apply mv_step; auto]. }
  eapply pwp_use; [pure_tac|exact K|]. cbv beta. intros _ c9 (g9 & D9 & M9).
  pose proof (x_size _ _ _ _ (m_ext _ _ _ _ M9)).
  assert (N9 : (bn < size c8)%nat) by (rewrite Z8; apply A36; auto).
  eapply S_end; eauto.
  - eapply go_trans; [exact G06|]. eapply go_trans; [exact G68|]. apply mv_go; auto.
  - lia.
  - rewrite (x_A _ _ _ _ (m_ext _ _ _ _ M9)) by auto. rewrite (proj2 (A36 _ Ln)), An. auto.
  - rewrite (m_locals _ _ _ _ M9), E8, (m_locals _ _ _ _ M7). apply P6.
Qed.
Lemma S_extrn l : forall g c, DO B g c -> pwp (genExtrn l) (fun _ c' => exists g', DO B g' c' /\ mv g c g' c') c.
Proof.
  induction l as [|n l IH]; intros g c HD; cbn [genExtrn].
  - apply pwp_ret. exists g. split; auto. apply mv_refl.
  - eapply pwp_use; [pure_tac|apply (ek_externName B noname [] n g c); auto using Us_none|]. cbv beta. intros _ c1 (g1 & D1 & S1 & _).
    eapply pwp_mono; [apply (IH g1 c1); auto|]. cbv beta. intros u c2 (g2 & D2 & M2). exists g2. split; auto. eapply mv_trans; [apply mv_step; eauto|auto].
Qed.
Lemma post_mv Xo keep sw L D g c g' c' : pre Xo keep sw L D g c -> DO B g' c' -> mv g c g' c' -> forall L', post Xo keep (L ++ L') D g c sw c'.
Proof. intros HP HD M L'. exists g'. split; [apply pre_loc_app; eapply pre_mv; eauto|apply mv_go; auto]. Qed.
Lemma post_from Xo keep L D g c g1 c1 sw c' : go g c g1 c1 -> post Xo keep L D g1 c1 sw c' -> post Xo keep L D g c sw c'.
Proof. intros G (g' & P & G'). exists g'. split; auto. eapply go_trans; eauto. Qed.
(** A label: every way to it goes through the names [S]. *)
Lemma S_label {Y} n P S Xo keep keep' sw sw' L D g c (K : C Y) Q : lab B g c n P -> (forall r, P r <-> regs c S r) -> incl S D -> (forall X, Xo = Some X -> incl X S) ->
  pre Xo keep sw L D g c ->
  (keep' = keep /\ sw' = sw /\ (forall k, keep = Some k -> incl k S)) ->
  (forall g' c', pre Xo keep' sw' L S g' c' -> go g c g' c' -> pwp K Q c') ->
  pwp (b <- GetOrCreateLabel n ;; brIfOpen b ;;; SetInsertPoint b ;;; K) Q c.
Proof.
  intros HL HP HI HX H0 HK HQ.
  eapply pwp_use; [pure_tac|apply (D_label g c n P); auto; apply H0|]. cbv beta. intros b c1 (g1 & D1 & M1 & K1 & L1 & A1 & _ & _).
  assert (P1 : pre Xo keep sw L D g1 c1) by (eapply pre_mv; eauto).
  assert (RA : forall r, gA g1 b r -> avail g1 c1 r).
  { intros r HR. apply A1, HP in HR. eapply regs_avail; [apply stable_eq; apply (m_locals _ _ _ _ M1)|apply P1|exact HI|exact HR]. }
  eapply pwp_use; [pure_tac|apply (D_brIfOpen g1 c1 b); auto|]. cbv beta. intros _ c2 (D2 & M2 & Z2).
  eapply pwp_use; [pure_tac|apply (D_insert B g1 c2 b); auto; rewrite Z2; auto|]. cbv beta. intros _ c3 (D3 & X3 & E3 & _ & _ & _ & A3).
  assert (M02 : mv g c g1 c2) by (eapply mv_trans; eauto).
  assert (G3 : go g c g1 c3) by (eapply go_trans; [apply mv_go; exact M02|split; [exact X3|apply stable_eq; auto]]).
  apply (HQ g1 c3); auto. destruct HK as (-> & -> & HK).
  eapply pre_move; [exact H0|auto|exact G3| |exact HI|exact HX| |right; auto].
  - rewrite E3, (m_locals _ _ _ _ M02). apply H0.
  - intros r HR. apply A3, A1, HP. auto.
Qed.
Lemma pre_sw Xo keep id vals vals' L D g c : pre Xo keep (Some (id, vals)) L D g c -> pre Xo keep (Some (id, vals')) L D g c.
Proof.
  intros []. constructor; auto. destruct keep as [k|]; auto. destruct p_keep0 as (H1 & H2 & id' & v' & H3 & H4 & H5). injection H3 as <- <-.
  split; auto. split; auto. exists id, vals'. auto.
Qed.
Lemma S_all : (forall s, SQ s) /\ (forall l, LQ l).
Proof.
  apply stmt_stmts_ind; unfold SQ, LQ; cbn [goodS goodL sureS sureL labels labelsL autos autosL].
  - (* SNull *) intros Xo keep sw L D D' g c _ E _ HP. injection E as <-. cbn [genS]. apply pwp_ret. eapply post_mv; eauto using mv_refl. apply HP.
  - (* SExpr *) intros e Xo keep sw L D D' g c _ E _ HP. destruct (usable L D e) eqn:EU; [|discriminate]. injection E as <-. cbn [genS].
    eapply pwp_use; [pure_tac|eapply D_genR; eauto|]. cbv beta. intros v c1 (g1 & P1 & M1 & _). apply pwp_ret. eapply post_mv; eauto. apply P1.
  - (* SBlock *) intros l IH Xo keep sw L D D' g c HG E HH HP. rewrite genS_block. eapply IH; eauto.
  - (* SReturn *) intros o Xo keep sw L D D' g c _ E _ HP.
    assert (K : forall v g1 c1, pre Xo keep sw L D g1 c1 -> mv g c g1 c1 -> vav g1 c1 v -> pwp (setTerm (TRet v) ;;; ret sw) (post Xo keep (L ++ []) D g c) c1).
    { intros v g1 c1 P1 M1 V1. eapply pwp_use; [pure_tac|apply (D_setTerm B g1 c1 (TRet v)); [apply P1|intros r [->|[]]; exact V1|intros j []]|].
      cbv beta. intros _ c2 (D2 & S2 & _). apply pwp_ret. eapply post_mv; eauto. eapply mv_trans; [exact M1|apply mv_step; auto]. }
    destruct o as [e|]; cbn [genS].
    + destruct (usable L D e) eqn:EU; [|discriminate]. injection E as <-. eapply pwp_use; [pure_tac|eapply D_genR; eauto|]. cbv beta. intros v c1 (g1 & P1 & M1 & V1). eapply K; eauto.
    + injection E as <-. eapply K; eauto using mv_refl. exact I.
  - (* SAuto *) intros l Xo keep sw L D D' g c _ E _ HP. injection E as <-. cbn [genS].
    eapply pwp_use; [pure_tac|apply D_checkAutos|]. cbv beta. intros _ c1 [-> HN].
    eapply pwp_use; [pure_tac|apply (D_declareAutos l g c); apply HP|]. cbv beta. intros _ c2 (D2 & X2 & M2 & N2 & I2). apply pwp_ret. exists g.
    assert (ST : stable c c2).
    { intros x v EX. rewrite N2; auto. intros X. rewrite (HN x X) in EX. discriminate. }
    assert (G2 : go g c g c2) by (split; auto). split; auto.
    assert (P2 : pre Xo keep sw (L ++ map fst l) D g c2).
    { eapply pre_move; [exact HP|auto|exact G2| |apply incl_refl|intros X; eapply base_in; eauto| |right; split; auto; split; auto; intros k; eapply keep_in; eauto].
      - intros x v EX. apply in_or_app. destruct (in_dec string_dec x (map fst l)) as [Y|Y]; auto. rewrite N2 in EX by auto. left. eapply HP; eauto.
      - intros r HR. apply M2. eapply regs_avail; [apply stable_refl|apply HP|apply incl_refl|exact HR]. }
    destruct P2. constructor; auto.
    + intros x HX. apply in_app_or in HX. destruct HX; auto.
    + destruct Xo as [X|], B as [Bs|]; auto. destruct p_base0. split; auto. apply incl_appr. auto.
    + destruct keep as [k|]; auto. destruct p_keep0 as (Q1 & Q2). split; [apply incl_appr; auto|auto].
  - (* SExtrn *) intros l Xo keep sw L D D' g c _ E _ HP. injection E as <-. cbn [genS].
    eapply pwp_use; [pure_tac|apply (S_extrn l g c); apply HP|]. cbv beta. intros _ c1 (g1 & D1 & M1). apply pwp_ret. eapply post_mv; eauto.
  - (* SIf *) intros e s IH Xo keep sw L D D' g c [_ HG] E HH HP. destruct (usable L D e) eqn:EU; [|discriminate].
    destruct (sureS Xo None s L D) as [D1|] eqn:ES; [|discriminate]. injection E as <-. cbn [genS].
    assert (HI : incl (around Xo (labels s) D) D) by (apply around_in; intros X; eapply base_in; eauto).
    eapply S_if; eauto.
    + eapply sure_mono; [exact ES|exact HI| |discriminate]. intros HN X EX. unfold around. destruct (labels s); [contradiction|]. rewrite EX. apply incl_refl.
    + intros b g1 c1 P1 G1 L1 A1.
      eapply pwp_use; [pure_tac|apply (D_brIfOpen g1 c1 b); [apply P1|auto|]|].
      { rewrite A1. intros r HR. eapply regs_avail; [apply G1|apply P1|exact HI|exact HR]. }
      cbv beta. intros _ c2 (D2 & M2 & Z2). eapply S_end; eauto.
      * intros X EX. refine (around_base _ _ _ X EX _). exact (base_in _ _ _ _ _ _ _ _ HP EX).
      * intros k EK. refine (around_keep _ _ keep _ k HH EK _). exact (keep_in _ _ _ _ _ _ _ _ HP EK).
      * eapply go_trans; [exact G1|apply mv_go; auto].
      * rewrite Z2. auto.
      * rewrite (m_locals _ _ _ _ M2). apply P1.
  - (* SIfElse *) intros e s1 IH1 s2 IH2 Xo keep sw L D D' g c (_ & HG1 & HG2) E HH HP. destruct (usable L D e) eqn:EU; [|discriminate].
    destruct (sureS Xo None s1 L D) as [D1|] eqn:ES1; [|discriminate]. destruct (sureS Xo None s2 (L ++ autos s1) D) as [D2|] eqn:ES2; [|discriminate]. injection E as <-. cbn [genS].
    set (De := around Xo (labels s1 ++ labels s2) D).
    assert (HI : incl De D) by (apply around_in; intros X; eapply base_in; eauto).
    assert (HN : labels s1 ++ labels s2 <> [] -> forall X, Xo = Some X -> incl De X).
    { intros HN X EX. unfold De, around. destruct (labels s1 ++ labels s2); [contradiction|]. rewrite EX. apply incl_refl. }
    eapply S_if; eauto.
    + eapply sure_mono; [exact ES1|exact HI| |discriminate]. intros HN1. apply HN. destruct (labels s1); [contradiction|discriminate].
    + intros b g1 c1 P1 G1 L1 A1.
      eapply pwp_use; [pure_tac|eapply (IH2 Xo None None); eauto using hk_none|]. cbv beta. intros sw2 c2 (g2 & P2 & G2).
      pose proof (x_size _ _ _ _ (proj1 G2)). assert (A2 : gA g2 b = regs c De) by (rewrite (x_A _ _ _ _ (proj1 G2)); auto).
      assert (G02 : go g c g2 c2) by (eapply go_trans; eauto).
      eapply pwp_use; [pure_tac|apply (D_brIfOpen g2 c2 b); [apply P2|lia|]|].
      { rewrite A2. intros r HR. eapply regs_avail; [apply G02|apply P2| |exact HR]. eapply sure_mono; [exact ES2|exact HI| |discriminate].
        intros HN2. apply HN. destruct (labels s1); [auto|discriminate]. }
      cbv beta. intros _ c3 (D3 & M3 & Z3). eapply S_end; eauto.
      * intros X EX. refine (around_base _ _ _ X EX _). exact (base_in _ _ _ _ _ _ _ _ HP EX).
      * intros k EK. refine (around_keep _ _ keep _ k HH EK _). exact (keep_in _ _ _ _ _ _ _ _ HP EK).
      * eapply go_trans; [exact G02|apply mv_go; auto].
      * lia.
      * rewrite (m_locals _ _ _ _ M3). rewrite app_assoc. apply P2.
  - (* SWhile *) intros e s IH Xo keep sw L D D' g c [_ HG] E HH HP. destruct (usable L _ e) eqn:EU; [|discriminate].
    destruct (sureS Xo None s L _) as [D1|] eqn:ES; [|discriminate]. injection E as <-. eapply S_while; eauto.
  - (* SSwitch *) intros e s IH Xo keep sw L D D' g c [_ HG] E HH HP. destruct (usable L D e) eqn:EU; [|discriminate].
    destruct (sureS Xo (Some _) s L _) as [D1|] eqn:ES; [|discriminate]. injection E as <-. eapply S_switch; eauto.
  - (* SCase *) intros z s IH Xo keep sw L D D' g c [_ HG] E HH HP. destruct keep as [k|]; [|discriminate]. cbn [genS].
    destruct sw as [[id vals]|]; [|apply pwp_err]. pose proof (p_keep _ _ _ _ _ _ _ HP) as (K1 & K2 & id' & vals' & K3 & K4 & K5). injection K3 as <- <-.
    eapply (S_label (case_name id z) (gK g id) k Xo (Some k) (Some k) (Some (id, vals)) (Some (id, vals)) L D g c); eauto.
    + right. exists id, z. auto.
    + split; auto. split; auto. intros k' EK. injection EK as <-. apply incl_refl.
    + intros g1 c1 P1 G1. apply pre_sw with (vals' := (vals ++ [z])%list) in P1.
      eapply pwp_mono; [eapply IH; eauto|]. intros sw' c2. apply post_from. auto.
  - (* SGoto *) intros n Xo keep sw L D D' g c HG E HH HP. destruct Xo as [X|]; [|discriminate]. injection E as <-. cbn [genS].
    pose proof (p_base _ _ _ _ _ _ _ HP) as PB. destruct B as [Bs|] eqn:EB; [|destruct PB].
    assert (HL : lab B g c n Bs) by (left; split; [apply nodot_name; auto|auto]). destruct PB as [PB1 PB2].
    eapply pwp_use; [pure_tac|apply (D_label g c n Bs); auto; apply HP|]. cbv beta. intros b c1 (g1 & D1 & M1 & K1 & L1 & A1 & _ & _).
    assert (P1 : pre (Some X) keep sw L D g1 c1) by (eapply pre_mv; eauto).
    eapply pwp_use; [pure_tac|apply (D_setTerm B g1 c1 (TBr b)); auto|].
    { intros r []. }
    { intros j [<-|[]]. split; auto. intros r HR. apply A1, PB2 in HR. eapply regs_avail; [apply stable_eq; apply (m_locals _ _ _ _ M1)|apply P1|exact PB1|exact HR]. }
    cbv beta. intros _ c2 (D2 & S2 & _ & Z2).
    apply pwp_bind; [pure_tac|]. apply pwp_nextLabelID. set (c3 := set_labelID _ c2).
    assert (D3 : DO B g1 c3) by (apply DO_id; auto). assert (M3 : mv g1 c2 g1 c3) by (apply mv_id). clearbody c3.
    eapply pwp_use; [pure_tac|apply (D_NewBlock B g1 c3 _ (avail g1 c3)); auto|]. cbv beta. intros d c4 (g4 & D4 & S4 & _ & L4 & A4 & _).
    assert (M04 : mv g c g4 c4) by (eapply mv_trans; [exact M1|]; eapply mv_trans; [apply mv_step; exact S2|]; eapply mv_trans; [exact M3|]; apply mv_step; exact S4).
    assert (M03 : mv g c g1 c3) by (eapply mv_trans; [exact M1|]; eapply mv_trans; [apply mv_step; exact S2|]; exact M3).
    eapply pwp_use; [pure_tac|apply (D_insert B g4 c4 d); auto|]. cbv beta. intros _ c5 (D5 & X5 & E5 & _ & _ & _ & A5). apply pwp_ret. exists g4.
    assert (G5 : go g c g4 c5) by (eapply go_trans; [apply mv_go; exact M04|split; [exact X5|apply stable_eq; auto]]).
    split; auto. rewrite app_nil_r. eapply pre_move; [exact HP|auto|exact G5| |apply incl_refl|intros Y EY; exact (base_in _ _ _ _ _ _ _ _ HP EY)| |right; split; auto; split; auto; intros k EK; exact (keep_in _ _ _ _ _ _ _ _ HP EK)].
    + rewrite E5, (m_locals _ _ _ _ M04). apply HP.
    + intros r HR. apply A5. rewrite A4. apply (m_avail _ _ _ _ M03). eapply regs_avail; [apply stable_refl|apply HP|apply incl_refl|exact HR].
  - (* SLabel *) intros n s IH Xo keep sw L D D' g c [HN HG] E HH HP. destruct Xo as [X|]; [|discriminate]. cbn [genS].
    pose proof (p_base _ _ _ _ _ _ _ HP) as PB. destruct B as [Bs|] eqn:EB; [|destruct PB]. destruct PB as [PB1 PB2].
    eapply (S_label n Bs X (Some X) keep keep sw sw L D g c); eauto.
    + left. split; [apply nodot_name; auto|auto].
    + intros Y EY. injection EY as <-. apply incl_refl.
    + split; auto. split; auto. intros k EK. apply (HH ltac:(discriminate) k X); auto.
    + intros g1 c1 P1 G1. eapply pwp_mono; [eapply IH; eauto|].
      { intros _. apply HH. discriminate. }
      intros sw' c2. apply post_from. auto.
  - (* SNil *) intros Xo keep sw L D D' g c _ E _ HP. injection E as <-. cbn [genL]. apply pwp_ret. eapply post_mv; eauto using mv_refl. apply HP.
  - (* SCons *) intros s IH1 l IH2 Xo keep sw L D D' g c [HG1 HG2] E HH HP. destruct (sureS Xo keep s L D) as [D1|] eqn:ES; [|discriminate].
    rewrite genL_cons. rewrite app_assoc.
    eapply pwp_use; [pure_tac|eapply IH1; eauto|].
    { intros HN. apply HH. destruct (labels s); [contradiction|discriminate]. }
    cbv beta. intros sw1 c1 (g1 & P1 & G1). eapply pwp_mono; [eapply IH2; eauto|].
    { intros HN. apply HH. destruct (labels s); [auto|discriminate]. }
    intros sw2 c2. apply post_from. auto.
Qed.
End S.
