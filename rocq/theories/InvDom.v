(** * InvDom: registers are assigned before they are used *)
From Coq Require Import List Ascii String ZArith NArith Lia Bool.
From Verif Require Import Base Lexer IR Builder Expr Stmt Decl Wp Syntax Pure Pwp SpecIR SpecSem SpecTree SpecValid SpecSure ParseGen Names InvIR InvDecl InvNames Built InvTerm InvPhi.
Import ListNotations.
Open Scope list_scope.
Open Scope Z_scope.
Open Scope m_scope.

(** For each block the registers assigned on every way to it, and for each
    switch those assigned on every way to its cases. *)
Record ghost := mkGhost { gA : nat -> nat -> Prop; gK : Z -> nat -> Prop }.
Definition outs (g : ghost) (c : cstate) (k r : nat) : Prop :=
  gA g k r \/ exists b, nth_error (c_blocks c) k = Some b /\ In r (assigned (b_insts b)).
Definition avail (g : ghost) (c : cstate) (r : nat) : Prop := outs g c (c_builder c) r.
Definition vav (g : ghost) (c : cstate) (v : value) : Prop := match v with VReg r => avail g c r | _ => True end.
(** The registers known at a label: [B] for labels of gotos. *)
Definition lab (B : option (nat -> Prop)) (g : ghost) (c : cstate) (n : string) (P : nat -> Prop) : Prop :=
  (nodot n /\ B = Some P) \/ (exists id z, n = case_name id z /\ id < c_labelID c /\ P = gK g id).
Definition size (c : cstate) : nat := List.length (c_blocks c).

(** Functions are not in registers. *)
Definition funs (c : cstate) : Prop := Forall (fun p => match snd p with VReg _ => False | _ => True end) (c_functions c).
Record DO (B : option (nat -> Prop)) (g : ghost) (c : cstate) : Prop := {
  DO_entry : forall r, ~ gA g 0 r;
  DO_cur : (c_builder c < size c)%nat;
  DO_insts : forall k b n i r, nth_error (c_blocks c) k = Some b -> nth_error (b_insts b) n = Some i -> is_phi i = false ->
    In (VReg r) (operands i) -> gA g k r \/ In r (assigned (firstn n (b_insts b)));
  DO_terms : forall k t r, ends c k t -> In (VReg r) (term_operands t) -> outs g c k r;
  DO_phis : forall k b x inc r s, nth_error (c_blocks c) k = Some b -> In (IPhi x inc) (b_insts b) -> In (VReg r, s) inc ->
    (s < size c)%nat /\ outs g c s r;
  DO_edges : forall i j, edge c i j -> (j < size c)%nat /\ forall r, gA g j r -> outs g c i r;
  DO_labels : forall n b, In (n, b) (c_labels c) -> (b < size c)%nat /\ exists P, lab B g c n P /\ forall r, gA g b r <-> P r;
  DO_funs : funs c
}.
(** What stays when code is added. *)
Record ext (g : ghost) (c : cstate) (g' : ghost) (c' : cstate) : Prop := {
  x_size : (size c <= size c')%nat;
  x_id : c_labelID c <= c_labelID c';
  x_A : forall k, (k < size c)%nat -> gA g' k = gA g k;
  x_K : forall id, id < c_labelID c -> gK g' id = gK g id;
  x_outs : forall k r, (k < size c)%nat -> outs g c k r -> outs g' c' k r
}.
Lemma ext_refl g c : ext g c g c. Proof. constructor; auto; lia. Qed.
Lemma ext_trans g c g1 c1 g2 c2 : ext g c g1 c1 -> ext g1 c1 g2 c2 -> ext g c g2 c2.
Proof.
  intros [] []. constructor; try lia.
  - intros k L. rewrite x_A1 by lia. auto.
  - intros k L. rewrite x_K1 by lia. auto.
  - intros k r L H. apply x_outs1; [lia|auto].
Qed.

(** ** Steps *)
Definition sameish (c c' : cstate) : Prop := same_code c c' /\ c_locals c' = c_locals c /\ c_labelID c <= c_labelID c'.
Lemma outs_same g c c' k r : c_blocks c' = c_blocks c -> outs g c' k r <-> outs g c k r.
Proof. intros E. unfold outs. rewrite E. tauto. Qed.
Lemma DO_same B g c c' : same_code c c' -> c_labelID c <= c_labelID c' -> funs c' -> DO B g c -> DO B g c'.
Proof.
  intros (E1 & E2 & E3) LE FU [].
  assert (SZ : size c' = size c) by (unfold size; rewrite E1; auto).
  assert (OM : forall k r, outs g c' k r <-> outs g c k r) by (intros; apply outs_same; auto).
  assert (EE : forall k x, ends c' k x <-> ends c k x) by (intros; unfold ends; rewrite E1; tauto).
  constructor; rewrite ?E1, ?E2, ?E3, ?SZ; auto.
  { intros k t r H1 H2. apply OM. apply EE in H1. eauto. }
  { intros. rewrite OM. eauto. }
  { intros k j (t & H1 & H2). apply EE in H1. destruct (DO_edges0 k j) as [H3 H4]; [exists t; auto|]. split; auto. intros. apply OM. auto. }
  intros n b H. destruct (DO_labels0 n b H) as (H1 & P & H2 & H3). split; auto. exists P. split; auto.
  destruct H2 as [|(id & z & H4 & H5 & H6)]; [left; auto|right]. exists id, z. split; auto. split; auto. lia.
Qed.
Lemma ext_same g c c' : same_code c c' -> c_labelID c <= c_labelID c' -> ext g c g c'.
Proof. intros (E1 & E2 & E3) LE. constructor; auto; unfold size; rewrite ?E1; auto. intros. apply (outs_same _ c); auto. Qed.

Lemma assigned_app a b : assigned (a ++ b) = assigned a ++ assigned b.
Proof. apply flat_map_app. Qed.
(** Adding an instruction to the current block. *)
Lemma outs_inst g c c' i k r : c_blocks c' = upd (c_builder c) (add_inst i) (c_blocks c) -> outs g c k r -> outs g c' k r.
Proof.
  intros E [H|(b & H1 & H2)]; [left; auto|]. right. rewrite E. destruct (Nat.eq_dec k (c_builder c)) as [->|N].
  - exists (add_inst i b). rewrite nth_upd_same, H1. split; auto. cbn. rewrite assigned_app. apply in_or_app. auto.
  - exists b. rewrite nth_upd_other; auto.
Qed.
Lemma ext_inst g c c' i : c_blocks c' = upd (c_builder c) (add_inst i) (c_blocks c) -> c_labelID c' = c_labelID c -> ext g c g c'.
Proof.
  intros E1 E2. constructor; auto; unfold size; rewrite ?E1, ?upd_length; auto; try lia. intros. eapply outs_inst; eauto.
Qed.
Definition okphi (g : ghost) (c : cstate) (i : inst) : Prop :=
  match i with
  | IPhi _ inc => forall r s, In (VReg r, s) inc -> (s < size c)%nat /\ outs g c s r
  | _ => forall r, In (VReg r) (operands i) -> avail g c r
  end.
Lemma DO_inst B g c c' i : okphi g c i ->
  c_blocks c' = upd (c_builder c) (add_inst i) (c_blocks c) ->
  c_builder c' = c_builder c -> c_labels c' = c_labels c -> c_labelID c' = c_labelID c -> c_functions c' = c_functions c -> DO B g c -> DO B g c'.
Proof.
  intros HO E1 E2 E3 E4 E5 [].
  assert (SZ : size c' = size c) by (unfold size; rewrite E1; apply upd_length).
  assert (OM : forall k r, outs g c k r -> outs g c' k r) by (intros; eapply outs_inst; eauto).
  constructor; rewrite ?E2, ?SZ; auto.
  - intros k b n x r H1 H2 H3 H4. rewrite E1 in H1. apply nth_upd in H1. destruct H1 as [[_ H1]|(-> & b0 & H1 & ->)]; [eapply DO_insts0; eauto|].
    cbn in H2. cbn [add_inst b_insts]. apply nth_snoc in H2. destruct H2 as [H2|[-> ->]].
    + destruct (DO_insts0 _ _ _ _ _ H1 H2 H3 H4); auto. right. rewrite firstn_app. rewrite assigned_app. apply in_or_app. auto.
    + rewrite firstn_app, firstn_all, Nat.sub_diag. cbn [firstn]. rewrite app_nil_r.
      assert (A : avail g c r) by (destruct i; try discriminate H3; apply HO; auto).
      destruct A as [|(b & A1 & A2)]; auto. rewrite H1 in A1. injection A1 as <-. auto.
  - intros k t r H1 H2. apply OM. eapply DO_terms0; eauto. apply (ends_inst _ _ _ E1). auto.
  - intros k b x inc r s H1 H2 H3. rewrite E1 in H1.
    assert (K : (exists b0, nth_error (c_blocks c) k = Some b0 /\ In (IPhi x inc) (b_insts b0)) \/ IPhi x inc = i).
    { apply nth_upd in H1. destruct H1 as [[_ H1]|(-> & b0 & H1 & ->)]; eauto. cbn in H2. apply in_app_or in H2. destruct H2 as [H2|[H2|[]]]; eauto. }
    destruct K as [(b0 & K1 & K2)| <-].
    + destruct (DO_phis0 _ _ _ _ _ _ K1 K2 H3). auto.
    + destruct (HO r s H3). auto.
  - intros k j H. apply (edge_inst _ _ _ E1) in H. destruct (DO_edges0 _ _ H). auto.
  - intros n b H. rewrite E3 in H. destruct (DO_labels0 n b H) as (H1 & P & H2 & H3). split; auto. exists P. split; auto.
    destruct H2 as [|(id & z & H4 & H5 & H6)]; [left; auto|right]. exists id, z. rewrite E4. auto.
  - unfold funs. rewrite E5. auto.
Qed.
(** Ending the current block. *)
Lemma outs_term g c c' t k r : c_blocks c' = upd (c_builder c) (put_term t) (c_blocks c) -> outs g c' k r <-> outs g c k r.
Proof.
  intros E. unfold outs. rewrite E. split; (intros [|(b & H1 & H2)]; [auto|right]).
  - apply nth_upd in H1. destruct H1 as [[_ H1]|(-> & b0 & H1 & ->)]; eauto.
  - destruct (Nat.eq_dec k (c_builder c)) as [->|N].
    + exists (put_term t b). rewrite nth_upd_same, H1. auto.
    + exists b. rewrite nth_upd_other; auto.
Qed.
Lemma DO_term B g c c' t : (forall r, In (VReg r) (term_operands t) -> avail g c r) ->
  (forall j, In j (successors t) -> (j < size c)%nat /\ forall r, gA g j r -> avail g c r) ->
  c_blocks c' = upd (c_builder c) (put_term t) (c_blocks c) ->
  c_builder c' = c_builder c -> c_labels c' = c_labels c -> c_labelID c' = c_labelID c -> c_functions c' = c_functions c -> DO B g c -> DO B g c'.
Proof.
  intros HT HS E1 E2 E3 E4 E5 [].
  assert (SZ : size c' = size c) by (unfold size; rewrite E1; apply upd_length).
  pose proof (fun k r => outs_term g c c' t k r E1) as OM.
  constructor; rewrite ?E2, ?SZ; auto.
  - intros k b n x r H1 H2 H3 H4. rewrite E1 in H1. apply nth_upd in H1. destruct H1 as [[_ H1]|(-> & b0 & H1 & ->)]; [eauto|]. cbn in *. eauto.
  - intros k x r H1 H2. apply OM. apply (ends_term _ _ _ E1 DO_cur0) in H1. destruct H1 as [[_ H1]|[-> ->]]; [eauto|apply HT; auto].
  - intros k b x inc r s H1 H2 H3. rewrite OM. rewrite E1 in H1. apply nth_upd in H1. destruct H1 as [[_ H1]|(-> & b0 & H1 & ->)]; eauto.
  - intros k j H. apply (edge_term _ _ _ E1 DO_cur0) in H. destruct H as [[_ H]|[-> H]].
    + destruct (DO_edges0 _ _ H). split; auto. intros. apply OM. auto.
    + destruct (HS j H) as [S1 S2]. split; auto. intros r X. apply OM. exact (S2 r X).
  - intros n b H. rewrite E3 in H. destruct (DO_labels0 n b H) as (H1 & P & H2 & H3). split; auto. exists P. split; auto.
    destruct H2 as [|(id & z & H4 & H5 & H6)]; [left; auto|right]. exists id, z. rewrite E4. auto.
  - unfold funs. rewrite E5. auto.
Qed.
Lemma ext_term g c c' t : c_blocks c' = upd (c_builder c) (put_term t) (c_blocks c) -> c_labelID c' = c_labelID c -> ext g c g c'.
Proof.
  intros E1 E2. constructor; auto; unfold size; rewrite ?E1, ?upd_length; auto; try lia. intros. apply (outs_term _ _ _ _ _ _ E1). auto.
Qed.
(** A new block. *)
Definition with_block (n : nat) (P : nat -> Prop) (g : ghost) : ghost := mkGhost (fun k => if (k =? n)%nat then P else gA g k) (gK g).
Lemma with_block_other n P g k : k <> n -> gA (with_block n P g) k = gA g k.
Proof. intros H. cbn. destruct (Nat.eqb_spec k n); [contradiction|auto]. Qed.
Lemma with_block_this n P g : gA (with_block n P g) n = P.
Proof. cbn. rewrite Nat.eqb_refl. auto. Qed.
Lemma outs_block g c c' n P k r : c_blocks c' = (c_blocks c ++ [mkBlock n [] None])%list -> (k < size c)%nat ->
  outs (with_block (size c) P g) c' k r <-> outs g c k r.
Proof.
  intros E L. unfold outs. rewrite with_block_other by lia. rewrite E. unfold size in *. rewrite nth_error_app1 by auto. tauto.
Qed.
Lemma DO_block B g c c' n P : c_blocks c' = (c_blocks c ++ [mkBlock n [] None])%list ->
  c_builder c' = c_builder c -> c_labels c' = c_labels c -> c_labelID c' = c_labelID c -> c_functions c' = c_functions c -> DO B g c -> DO B (with_block (size c) P g) c'.
Proof.
  intros E1 E2 E3 E4 E5 [].
  assert (SZ : size c' = S (size c)) by (unfold size; rewrite E1, app_length; cbn; lia).
  assert (OM : forall k r, (k < size c)%nat -> outs (with_block (size c) P g) c' k r <-> outs g c k r) by (intros; eapply outs_block; eauto).
  assert (NB : forall k b, nth_error (c_blocks c') k = Some b -> (nth_error (c_blocks c) k = Some b /\ (k < size c)%nat) \/ b = mkBlock n [] None).
  { intros k b H. rewrite E1 in H. apply nth_snoc in H. destruct H as [H|[_ ->]]; auto. left. split; auto. unfold size. eapply nth_lt; eauto. }
  assert (EN : forall k t, ends c' k t -> ends c k t /\ (k < size c)%nat).
  { intros k t (b & H1 & H2). destruct (NB _ _ H1) as [[H3 H4]| ->]; [|discriminate]. split; auto. exists b. auto. }
  constructor; rewrite ?E2.
  - intros r. rewrite with_block_other by lia. auto.
  - lia.
  - intros k b m i r H1 H2 H3 H4. destruct (NB _ _ H1) as [[H5 H6]| ->]; [|destruct m; discriminate].
    rewrite with_block_other by lia. eauto.
  - intros k t r H1 H2. apply EN in H1. destruct H1. apply OM; eauto.
  - intros k b x inc r s H1 H2 H3. destruct (NB _ _ H1) as [[H5 H6]| ->]; [|destruct H2].
    destruct (DO_phis0 _ _ _ _ _ _ H5 H2 H3). split; [lia|]. apply OM; auto.
  - intros k j (t & H1 & H2). apply EN in H1. destruct H1 as [H1 H3]. destruct (DO_edges0 k j) as [H4 H5]; [exists t; auto|]. split; [lia|].
    intros r. rewrite with_block_other by lia. intros. apply OM; auto.
  - intros m b H. rewrite E3 in H. destruct (DO_labels0 m b H) as (H1 & Q & H2 & H3). split; [lia|]. exists Q. rewrite with_block_other by lia. split; auto.
    destruct H2 as [|(id & z & H4 & H5 & H6)]; [left; auto|right]. exists id, z. rewrite E4. auto.
  - unfold funs. rewrite E5. auto.
Qed.
Lemma ext_block g c c' n P : c_blocks c' = (c_blocks c ++ [mkBlock n [] None])%list -> c_labelID c' = c_labelID c -> ext g c (with_block (size c) P g) c'.
Proof.
  intros E1 E2. constructor; auto.
  - unfold size. rewrite E1, app_length. lia.
  - lia.
  - intros k L. apply with_block_other. lia.
  - intros k r L H. eapply outs_block; eauto.
Qed.
Lemma DO_move B g c b : (b < size c)%nat -> DO B g c -> DO B g (set_builder b c).
Proof. intros H []. constructor; auto. Qed.
Lemma ext_move g c b : ext g c g (set_builder b c).
Proof. constructor; auto; cbn; try lia; unfold size; cbn; lia. Qed.

(** ** Expressions *)
Section Expr.
Variable B : option (nat -> Prop).
(** The names that may be used. *)
Variable U : string -> Prop.
Definition Us (g : ghost) (c : cstate) : Prop := forall x v, U x -> assoc x (c_locals c) = Some v -> vav g c v.
Record step (g : ghost) (c : cstate) (g' : ghost) (c' : cstate) : Prop := {
  s_ext : ext g c g' c';
  s_locals : c_locals c' = c_locals c;
  s_labels : c_labels c' = c_labels c;
  s_avail : forall r, avail g c r -> avail g' c' r
}.
Lemma step_refl g c : step g c g c. Proof. constructor; auto using ext_refl. Qed.
Lemma step_trans g c g1 c1 g2 c2 : step g c g1 c1 -> step g1 c1 g2 c2 -> step g c g2 c2.
Proof. intros [] []. constructor; try congruence; auto. eapply ext_trans; eauto. Qed.
Lemma vav_step g c g' c' v : step g c g' c' -> vav g c v -> vav g' c' v.
Proof. intros []. destruct v; cbn; auto. Qed.
Lemma Us_step g c g' c' : step g c g' c' -> Us g c -> Us g' c'.
Proof. intros S H x v HU E. eapply vav_step; eauto. rewrite (s_locals _ _ _ _ S) in E. eauto. Qed.
Lemma step_inst g c c' i : c_blocks c' = upd (c_builder c) (add_inst i) (c_blocks c) -> c_builder c' = c_builder c -> c_labels c' = c_labels c ->
  c_labelID c' = c_labelID c -> c_locals c' = c_locals c -> step g c g c'.
Proof. intros. constructor; auto. - eapply ext_inst; eauto. - intros r. unfold avail. rewrite H0. eapply outs_inst; eauto. Qed.
Lemma step_same g c c' : same_code c c' -> c_labelID c <= c_labelID c' -> c_locals c' = c_locals c -> step g c g c'.
Proof.
  intros (E1 & E2 & E3) L E4. constructor; auto. - apply ext_same; auto. split; auto. - intros r. unfold avail. rewrite E2. apply outs_same. auto.
Qed.
Lemma step_block g c c' n P : DO B g c -> c_blocks c' = (c_blocks c ++ [mkBlock n [] None])%list -> c_builder c' = c_builder c -> c_labels c' = c_labels c ->
  c_labelID c' = c_labelID c -> c_locals c' = c_locals c -> step g c (with_block (size c) P g) c'.
Proof.
  intros HD E1 E2 E3 E4 E5. constructor; auto. - eapply ext_block; eauto.
  - intros r. unfold avail. rewrite E2. apply (outs_block _ _ _ _ _ _ _ E1). apply (DO_cur _ _ _ HD).
Qed.
Lemma step_term g c c' t : c_blocks c' = upd (c_builder c) (put_term t) (c_blocks c) -> c_builder c' = c_builder c -> c_labels c' = c_labels c ->
  c_labelID c' = c_labelID c -> c_locals c' = c_locals c -> step g c g c'.
Proof. intros. constructor; auto. - eapply ext_term; eauto. - intros r. unfold avail. rewrite H0. apply (outs_term _ _ _ _ _ _ H). Qed.

Definition epost {X} (g : ghost) (c : cstate) (V : X -> list value) (x : X) (c' : cstate) : Prop :=
  exists g', DO B g' c' /\ step g c g' c' /\ Forall (vav g' c') (V x).
(** [m] makes the values [V] available when the values [W] are. *)
Definition ek {X} (W : list value) (m : C X) (V : X -> list value) : Prop :=
  forall g c, DO B g c -> Us g c -> Forall (vav g c) W -> pwp m (epost g c V) c.
Lemma ek_bind {X Y} W (m : C X) (f : X -> C Y) V V' : pure m -> ek W m V -> (forall x, ek (V x ++ W) (f x) V') -> ek W (bind m f) V'.
Proof.
  intros HP H1 H2 g c HD HU HW. eapply pwp_use; [auto|apply H1; eauto|]. cbv beta. intros a c1 (g1 & D1 & S1 & V1).
  eapply pwp_mono; [apply (H2 a g1 c1); auto|].
  - eapply Us_step; eauto.
  - apply Forall_app. split; auto. eapply Forall_impl; [|exact HW]. intros v. apply vav_step. auto.
  - cbv beta. intros b c2 (g2 & D2 & S2 & V2). exists g2. split; auto. split; auto. eapply step_trans; eauto.
Qed.
Definition okv (W : list value) (v : value) : Prop := match v with VReg _ => In v W | _ => True end.
Lemma okv_in W v : In v W -> okv W v. Proof. destruct v; cbn; auto. Qed.
Lemma okv_vav g c W v : Forall (vav g c) W -> okv W v -> vav g c v.
Proof. intros H. rewrite Forall_forall in H. destruct v; cbn; auto. intros X. apply (H _ X). Qed.
Lemma ek_ret {X} W (x : X) V : Forall (okv W) (V x) -> ek W (ret x) V.
Proof.
  intros HV g c HD HU HW. apply pwp_ret. exists g. split; auto. split; [apply step_refl|].
  eapply Forall_impl; [|exact HV]. intros v. apply okv_vav. auto.
Qed.
Lemma ek_err {X} W e V : ek W (@errorf st X e) V. Proof. intros g c HD HU HW. apply pwp_err. Qed.
Lemma ek_get W : ek W get (fun _ => []). Proof. intros g c HD HU HW. apply pwp_get. exists g. split; auto. split; [apply step_refl|constructor]. Qed.
Lemma ek_modify W f : (forall c, same_code c (f c) /\ c_labelID (f c) = c_labelID c /\ c_locals (f c) = c_locals c /\ (funs c -> funs (f c))) -> ek W (modify f) (fun _ => []).
Proof.
  intros HS g c HD HU HW. apply pwp_modify. destruct (HS c) as (E1 & E2 & E3 & E4). exists g. split; [apply (DO_same _ _ c); auto; [lia|apply E4; apply HD]|]. split; [|constructor].
  apply step_same; auto; lia.
Qed.
Lemma not_phi g c W i : is_phi i = false -> Forall (vav g c) W -> Forall (okv W) (operands i) -> okphi g c i.
Proof.
  intros HI HW HO. rewrite Forall_forall in HO. destruct i; try discriminate HI; intros rr H; apply (okv_vav g c W (VReg rr)); auto; apply HO; auto.
Qed.
Lemma ek_emit W i : is_phi i = false -> Forall (okv W) (operands i) -> ek W (emit i) (fun _ => []).
Proof.
  intros HI HO g c HD HU HW. apply pwp_emit. exists g. split; [eapply DO_inst; eauto using not_phi; reflexivity|]. split; [|constructor]. eapply step_inst; reflexivity.
Qed.
Lemma emitted_avail g c mk : (c_builder c < size c)%nat -> assigns (mk (c_nreg c)) = [c_nreg c] -> avail g (emitted mk c) (c_nreg c).
Proof.
  intros L E. right. cbn. destruct (nth_error (c_blocks c) (c_builder c)) as [b|] eqn:EB; [|apply nth_error_None in EB; unfold size in L; lia].
  exists (add_inst (mk (c_nreg c)) b). rewrite nth_upd_same, EB. split; auto. cbn. rewrite assigned_app. apply in_or_app. right. unfold assigned. cbn. rewrite E. left. auto.
Qed.
Lemma ek_emitR W mk : (forall r, is_phi (mk r) = false /\ assigns (mk r) = [r] /\ Forall (okv W) (operands (mk r))) -> ek W (emitR mk) (fun v => [v]).
Proof.
  intros HI g c HD HU HW. apply pwp_emitR. destruct (HI (c_nreg c)) as (H1 & H2 & H3). exists g. split; [|split].
  - eapply DO_inst; eauto using not_phi; reflexivity.
  - eapply step_inst; reflexivity.
  - constructor; [|constructor]. apply emitted_avail; auto. apply (DO_cur _ _ _ HD).
Qed.
Lemma ek_weak {X} W W' (m : C X) V : incl W W' -> ek W m V -> ek W' m V.
Proof. intros HI H g c HD HU HW. apply H; auto. rewrite Forall_forall in *. auto. Qed.
Lemma ek_less {X} W (m : C X) V V' : (forall x, incl (V' x) (V x)) -> ek W m V -> ek W m V'.
Proof.
  intros HI H g c HD HU HW. eapply pwp_mono; [apply (H g c); auto|]. cbv beta. intros x c' (g' & D1 & S1 & V1). exists g'. split; auto. split; auto.
  rewrite Forall_forall in *. intros v Hv. apply V1. apply HI. auto.
Qed.
Ltac inn := cbn [app]; first [left; reflexivity|assumption|right; inn].
Ltac okvs := repeat (apply Forall_cons || apply Forall_nil); first [exact I|apply okv_in; inn].
Ltac ek_tac :=
  repeat (first
    [ solve [apply ek_ret; okvs]
    | solve [apply ek_err]
    | solve [apply ek_get]
    | solve [apply ek_emitR; intros ?; split; [reflexivity|split; [reflexivity|cbn [operands]; okvs]]]
    | solve [apply ek_emit; [reflexivity|cbn [operands]; okvs]]
    | solve [apply ek_modify; intros ?; split; [split; [reflexivity|split; reflexivity]|split; [reflexivity|split; [reflexivity|exact (fun H => H)]]]]
    | solve [auto with ek nocore]
    | eapply ek_bind; [solve [pure_tac]| |intros ?]
    | match goal with
      | |- ek _ (let _ := _ in _) _ => cbv zeta
      | |- ek _ (if ?x then _ else _) _ => destruct x
      | |- ek _ (match ?x with _ => _ end) _ => destruct x
      end ]).
Definition none {X} (_ : X) : list value := [].
Lemma ek_CreateStringConstant W s : ek W (CreateStringConstant s) none.
Proof. unfold CreateStringConstant. ek_tac. Qed.
Hint Resolve ek_CreateStringConstant : ek.
Lemma ek_GetOrDeclareFunction W n : ek W (GetOrDeclareFunction n) (fun o => match o with Some v => [v] | None => [] end).
Proof.
  intros g c HD HU HW. unfold GetOrDeclareFunction. apply pwp_bind; [auto with pure|]. apply pwp_get.
  destruct (assoc n (c_functions c)) as [fn|] eqn:E1.
  { refine (ek_ret W _ _ _ g c HD HU HW). apply assoc_In in E1. pose proof (DO_funs _ _ _ HD) as F. unfold funs in F. rewrite Forall_forall in F. specialize (F _ E1). cbn in F.
    destruct fn; try contradiction; okvs. }
  destruct (assoc n (c_globals c)); [refine (ek_ret W _ _ _ g c HD HU HW); constructor|]. cbv zeta.
  match goal with |- pwp ?m _ _ => assert (K : ek W m (fun o => match o with Some v => [v] | None => [] end)) end; [|apply K; auto].
  eapply ek_bind; [pure_tac| |intros ?; apply ek_ret; okvs].
  apply ek_modify. intros c0. split; [split; [reflexivity|split; reflexivity]|]. split; [reflexivity|]. split; [reflexivity|].
  intros H. constructor; [exact I|exact H].
Qed.
Hint Resolve ek_GetOrDeclareFunction : ek.
Lemma ek_externName W n : ek W (externName n) none.
Proof. unfold externName. cbv zeta. ek_tac. Qed.
Hint Resolve ek_externName : ek.
Lemma ek_GetAddress W n : U n -> ek W (GetAddress n) (fun o => match o with Some v => [v] | None => [] end).
Proof.
  intros HN g c HD HU HW. unfold GetAddress. apply pwp_bind; [auto with pure|]. apply pwp_get.
  destruct (assoc n (c_locals c)) as [v|] eqn:E1.
  { apply pwp_ret. exists g. split; auto. split; [apply step_refl|]. constructor; [|constructor]. eapply HU; eauto. }
  match goal with |- pwp ?m _ _ => assert (K : ek W m (fun o => match o with Some v => [v] | None => [] end)) end; [|apply K; auto].
  ek_tac.
Qed.
Definition val1 (p : value * bool) : list value := [fst p].
Lemma ek_genVar W q n : U n -> ek W (genVar q n) val1.
Proof.
  intros HN. unfold genVar. eapply ek_bind; [pure_tac|apply ek_GetAddress; auto|]. intros [a|]; ek_tac.
Qed.
Lemma ek_genCallee W n : ek W (genCallee n) val1.
Proof. unfold genCallee. ek_tac. Qed.
Lemma ek_rval W v b : In v W -> ek W (rval v b) (fun v => [v]).
Proof. intros HV. unfold rval. destruct b; [|apply ek_ret; okvs]. apply ek_emitR. intros r. split; [reflexivity|split; [reflexivity|]]. cbn [operands]. okvs. Qed.
Lemma ek_cmpz W p a b : okv W a -> okv W b -> ek W (cmpz p a b) (fun v => [v]).
Proof.
  intros HA HB. unfold cmpz. eapply ek_bind; [pure_tac|apply ek_emitR; intros r; split; [reflexivity|split; [reflexivity|cbn [operands]; repeat constructor; auto]]|intros ?; ek_tac].
Qed.
Lemma ek_applyCop W o a b : okv W a -> okv W b -> ek W (applyCop o a b) (fun v => [v]).
Proof.
  intros HA HB. destruct o; cbn [applyCop]; [|apply ek_cmpz; auto].
  apply ek_emitR. intros r. split; [reflexivity|split; [reflexivity|]]. cbn [operands]. repeat constructor; auto.
Qed.
Lemma ek_doCall W f a : okv W f -> Forall (okv W) a -> ek W (doCall f a) (fun v => [v]).
Proof.
  intros HF HA. unfold doCall.
  assert (X : forall p, Forall (okv ([p] ++ W)) a).
  { intros p. eapply Forall_impl; [|exact HA]. intros v H. destruct v; auto. right. auto. }
  destruct f as [z|r|n|n v k|p]; cbv zeta; try destruct (_ && _);
    try (eapply ek_bind; [pure_tac|apply ek_emitR; intros; split; [reflexivity|split; [reflexivity|cbn [operands]; repeat constructor; auto]]|intros]);
    apply ek_emitR; intros; (split; [reflexivity|split; [reflexivity|cbn [operands]; constructor; auto]]); apply okv_in; left; auto.
Qed.
Lemma ek_incDec W o p : okv W p -> ek W (incDec o p) (fun v => [v]).
Proof.
  intros HP. unfold incDec. 
  assert (X : forall l, okv (l ++ W) p) by (intros l; destruct p; auto; apply in_or_app; right; auto).
  eapply ek_bind; [pure_tac|apply ek_emitR; intros; split; [reflexivity|split; [reflexivity|cbn [operands]; repeat constructor; auto]]|intros v1].
  eapply ek_bind; [pure_tac|apply ek_emitR; intros; split; [reflexivity|split; [reflexivity|cbn [operands]; okvs]]|intros v2].
  eapply ek_bind; [pure_tac|apply ek_emit; [reflexivity|cbn [operands]; constructor; [okvs|constructor; [apply (X [v2; v1])|constructor]]]|intros ?].
  apply ek_ret. okvs.
Qed.
Lemma D_NewBlock g c n P : DO B g c -> pwp (NewBlock n) (fun b c' => exists g', DO B g' c' /\ step g c g' c' /\ b = size c /\ (b < size c')%nat /\
  gA g' b = P /\ gK g' = gK g /\ c_builder c' = c_builder c /\ c_labelID c' = c_labelID c) c.
Proof using B.
  clear U. intros HD. apply pwp_NewBlock. exists (with_block (size c) P g).
  split; [eapply DO_block; eauto; reflexivity|]. split; [eapply step_block; eauto; reflexivity|]. split; [reflexivity|]. split; [unfold size; cbn; rewrite app_length; cbn; lia|].
  split; [apply with_block_this|auto].
Qed.
Lemma D_setTerm g c t : DO B g c -> (forall r, In (VReg r) (term_operands t) -> avail g c r) ->
  (forall j, In j (successors t) -> (j < size c)%nat /\ forall r, gA g j r -> avail g c r) ->
  pwp (setTerm t) (fun _ c' => DO B g c' /\ step g c g c' /\ c_builder c' = c_builder c /\ size c' = size c) c.
Proof.
  intros HD H1 H2. apply pwp_setTerm. split; [eapply DO_term; eauto; reflexivity|]. split; [eapply step_term; reflexivity|].
  split; [reflexivity|]. unfold size. cbn. apply upd_length.
Qed.
Lemma D_insert g c b : DO B g c -> (b < size c)%nat ->
  pwp (SetInsertPoint b) (fun _ c' => DO B g c' /\ ext g c g c' /\ c_locals c' = c_locals c /\ c_labels c' = c_labels c /\ c_builder c' = b /\ size c' = size c /\
    forall r, gA g b r -> avail g c' r) c.
Proof.
  intros HD HB. apply pwp_SetInsertPoint. split; [apply DO_move; auto|]. split; [apply ext_move|]. do 3 (split; [reflexivity|]). split; [reflexivity|].
  intros r H. left. exact H.
Qed.
Lemma Us_from g c g' c' : c_locals c' = c_locals c -> (forall r, avail g c r -> avail g' c' r) -> Us g c -> Us g' c'.
Proof. intros E H HU x v HX HE. rewrite E in HE. specialize (HU x v HX HE). destruct v; cbn in *; auto. Qed.
Lemma vav_from g c g' c' v : (forall r, avail g c r -> avail g' c' r) -> vav g c v -> vav g' c' v.
Proof. intros H. destruct v; cbn; auto. Qed.
(** Values available at the end of a block that has been left. *)
Definition vout (g : ghost) (c : cstate) (k : nat) (v : value) : Prop := match v with VReg r => outs g c k r | _ => True end.
Lemma vout_ext g c g' c' k v : ext g c g' c' -> (k < size c)%nat -> vout g c k v -> vout g' c' k v.
Proof. intros X L. destruct v; cbn; auto. apply (x_outs _ _ _ _ X). auto. Qed.

Lemma ek_cond W v q chk (b d : expr) : (forall W, ek W (gen chk false b) val1) -> (forall W, ek W (gen chk q d) val1) -> In v W -> ek W (
      id <- nextLabelID ;;
      bThen <- NewBlock ("cond.then." ++ dec id) ;;
      bElse <- NewBlock ("cond.else." ++ dec id) ;;
      bEnd <- NewBlock ("cond.end." ++ dec id) ;;
      cmp <- emitR (fun r => ICmp r PNE v (VInt 0)) ;;
      setTerm (TCondBr cmp bThen bElse) ;;;
      SetInsertPoint bThen ;;;
      '(w, l) <- gen chk false b ;; vThen <- rval w l ;;
      eThen <- GetInsertBlock ;;
      setTerm (TBr bEnd) ;;;
      SetInsertPoint bElse ;;;
      '(x, l) <- gen chk q d ;; vElse <- rval x l ;;
      eElse <- GetInsertBlock ;;
      setTerm (TBr bEnd) ;;;
      SetInsertPoint bEnd ;;;
      p <- emitR (fun r => IPhi r [(vThen, eThen); (vElse, eElse)]) ;;
      ret (p, false)) val1.
Proof.
  intros HB HC HV g0 c0 D0 U0 W0. apply pwp_bind; [auto with pure|]. apply pwp_nextLabelID. set (c1 := set_labelID _ c0).
  assert (D1 : DO B g0 c1) by (apply (DO_same _ _ c0); [repeat split|cbn; lia|apply D0|auto]).
  assert (S1 : step g0 c0 g0 c1) by (apply step_same; [repeat split|cbn; lia|reflexivity]).
  clearbody c1.
  eapply pwp_use; [pure_tac|apply (D_NewBlock g0 c1 _ (avail g0 c0)); auto|]. cbv beta. intros bt c2 (g2 & D2 & S2 & E2 & L2 & A2 & _).
  eapply pwp_use; [pure_tac|apply (D_NewBlock g2 c2 _ (avail g0 c0)); auto|]. cbv beta. intros be c3 (g3 & D3 & S3 & E3 & L3 & A3 & _).
  eapply pwp_use; [pure_tac|apply (D_NewBlock g3 c3 _ (avail g0 c0)); auto|]. cbv beta. intros bn c4 (g & D4 & S4 & E4 & L4 & A4 & _).
  assert (At : gA g bt = avail g0 c0) by (rewrite (x_A _ _ _ _ (s_ext _ _ _ _ S4)), (x_A _ _ _ _ (s_ext _ _ _ _ S3)) by lia; auto).
  assert (Ae : gA g be = avail g0 c0) by (rewrite (x_A _ _ _ _ (s_ext _ _ _ _ S4)) by lia; auto).
  assert (S04 : step g0 c0 g c4) by (eapply step_trans; [exact S1|]; eapply step_trans; [exact S2|]; eapply step_trans; eauto).
  assert (Lt : (bt < size c4)%nat) by lia. assert (Le : (be < size c4)%nat) by lia.
  clear S1 S2 S3 S4 D1 D2 D3 A2 A3 L2 L3 E2 E3 E4.
  assert (U4 : Us g c4) by (eapply Us_step; eauto).
  assert (W4 : Forall (vav g c4) W) by (eapply Forall_impl; [|exact W0]; intros ?; apply vav_step; auto).
  eapply pwp_use; [pure_tac|apply (ek_emitR W _); eauto; intros r; split; [reflexivity|split; [reflexivity|cbn [operands]; repeat constructor; apply okv_in; auto]]|].
  cbv beta. intros cmp c5 (g5 & D5 & S5 & V5). inversion V5 as [|? ? V5' _]; subst. clear V5. rename V5' into V5.
  assert (S05 : step g0 c0 g5 c5) by (eapply step_trans; eauto).
  assert (ML : forall k, (k < size c4)%nat -> (k < size c5)%nat) by (intros; pose proof (x_size _ _ _ _ (s_ext _ _ _ _ S5)); lia).
  eapply pwp_use; [pure_tac|apply (D_setTerm g5 c5); auto|].
  { intros r [->|[]]. exact V5. }
  { intros j [<-|[<-|[]]]; (split; [auto|]); rewrite (x_A _ _ _ _ (s_ext _ _ _ _ S5)) by auto; [rewrite At|rewrite Ae]; apply (s_avail _ _ _ _ S05). }
  cbv beta. intros _ c6 (D6 & S6 & _ & Z6).
  assert (S06 : step g0 c0 g5 c6) by (eapply step_trans; eauto).
  assert (S46 : step g c4 g5 c6) by (eapply step_trans; eauto).
  eapply pwp_use; [pure_tac|apply (D_insert g5 c6 bt); auto; rewrite Z6; auto|].
  cbv beta. intros _ c7 (D7 & X7 & Q1 & Q2 & Q3 & Q4 & Q5).
  assert (X47 : ext g c4 g5 c7) by (eapply ext_trans; [apply (s_ext _ _ _ _ S46)|exact X7]).
  assert (M7 : forall r, avail g0 c0 r -> avail g5 c7 r) by (intros r HR; apply Q5; rewrite (x_A _ _ _ _ (s_ext _ _ _ _ S46)) by auto; rewrite At; auto).
  assert (U7 : Us g5 c7) by (eapply (Us_from g0 c0); eauto; rewrite Q1; apply (s_locals _ _ _ _ S06)).
  eapply pwp_use; [pure_tac|apply (HB [] g5 c7); auto|]. cbv beta. intros [w l] c8 (g8 & D8 & S8 & V8). unfold val1 in V8. cbn [fst] in V8.
  eapply pwp_use; [pure_tac|apply (ek_rval [w] w l (or_introl eq_refl) g8 c8); auto; eapply Us_step; eauto|]. cbv beta. intros vt c9 (g9 & D9 & S9 & V9).
  inversion V9 as [|? ? V9' _]; subst. clear V9 V8. rename V9' into V9.
  apply pwp_bind; [pure_tac|]. apply pwp_GetInsertBlock.
  assert (X49 : ext g c4 g9 c9) by (eapply ext_trans; [exact X47|]; eapply ext_trans; [apply (s_ext _ _ _ _ S8)|apply (s_ext _ _ _ _ S9)]).
  assert (ML9 : forall k, (k < size c4)%nat -> (k < size c9)%nat) by (intros; pose proof (x_size _ _ _ _ X49); lia).
  assert (M9 : forall r, avail g0 c0 r -> avail g9 c9 r) by (intros r HR; apply (s_avail _ _ _ _ S9), (s_avail _ _ _ _ S8); auto).
  eapply pwp_use; [pure_tac|apply (D_setTerm g9 c9 (TBr bn)); auto|].
  { intros r []. }
  { intros j [<-|[]]. split; [auto|]. rewrite (x_A _ _ _ _ X49) by auto. rewrite A4. auto. }
  cbv beta. intros _ c10 (D10 & S10 & B10 & Z10).
  assert (KT : vout g9 c10 (c_builder c9) vt).
  { apply (vout_ext g9 c9 g9 c10); [apply (s_ext _ _ _ _ S10)|apply (DO_cur _ _ _ D9)|]. destruct vt; auto. }
  eapply pwp_use; [pure_tac|apply (D_insert g9 c10 be); auto; rewrite Z10; auto|].
  cbv beta. intros _ c11 (D11 & X11 & R1 & R2 & R3 & R4 & R5).
  assert (X9 : ext g9 c10 g9 c11) by auto.
  assert (X4_11 : ext g c4 g9 c11) by (eapply ext_trans; [exact X49|]; eapply ext_trans; [apply (s_ext _ _ _ _ S10)|exact X11]).
  assert (M11 : forall r, avail g0 c0 r -> avail g9 c11 r) by (intros r HR; apply R5; rewrite (x_A _ _ _ _ X49) by auto; rewrite Ae; auto).
  assert (LC : c_locals c11 = c_locals c0).
  { rewrite R1, (s_locals _ _ _ _ S10), (s_locals _ _ _ _ S9), (s_locals _ _ _ _ S8), Q1. apply (s_locals _ _ _ _ S06). }
  assert (LB : c_labels c11 = c_labels c0).
  { rewrite R2, (s_labels _ _ _ _ S10), (s_labels _ _ _ _ S9), (s_labels _ _ _ _ S8), Q2. apply (s_labels _ _ _ _ S06). }
  assert (KT1 : (c_builder c9 < size c10)%nat) by (rewrite Z10; apply (DO_cur _ _ _ D9)).
  assert (U11 : Us g9 c11) by (eapply (Us_from g0 c0); eauto).
  eapply pwp_use; [pure_tac|apply (HC [] g9 c11); auto|]. cbv beta. intros [x l2] c12 (g12 & D12 & S12 & V12). unfold val1 in V12. cbn [fst] in V12.
  eapply pwp_use; [pure_tac|apply (ek_rval [x] x l2 (or_introl eq_refl) g12 c12); auto; eapply Us_step; eauto|]. cbv beta. intros ve c13 (g13 & D13 & S13 & V13).
  inversion V13 as [|? ? V13' _]; subst. clear V13 V12. rename V13' into V13.
  apply pwp_bind; [pure_tac|]. apply pwp_GetInsertBlock.
  assert (X11_13 : ext g9 c11 g13 c13) by (eapply ext_trans; [apply (s_ext _ _ _ _ S12)|apply (s_ext _ _ _ _ S13)]).
  assert (X413 : ext g c4 g13 c13) by (eapply ext_trans; eauto).
  assert (ML13 : forall k, (k < size c4)%nat -> (k < size c13)%nat) by (intros; pose proof (x_size _ _ _ _ X413); lia).
  assert (M13 : forall r, avail g0 c0 r -> avail g13 c13 r) by (intros r HR; apply (s_avail _ _ _ _ S13), (s_avail _ _ _ _ S12); auto).
  eapply pwp_use; [pure_tac|apply (D_setTerm g13 c13 (TBr bn)); auto|].
  { intros r []. }
  { intros j [<-|[]]. split; [auto|]. rewrite (x_A _ _ _ _ X413) by auto. rewrite A4. auto. }
  cbv beta. intros _ c14 (D14 & S14 & B14 & Z14).
  assert (KE : vout g13 c14 (c_builder c13) ve).
  { apply (vout_ext g13 c13 g13 c14); [apply (s_ext _ _ _ _ S14)|apply (DO_cur _ _ _ D13)|]. destruct ve; auto. }
  assert (XT : ext g9 c10 g13 c14) by (eapply ext_trans; [exact X11|]; eapply ext_trans; [exact X11_13|apply (s_ext _ _ _ _ S14)]).
  assert (KT2 : vout g13 c14 (c_builder c9) vt) by (eapply vout_ext; [exact XT|auto|auto]).
  eapply pwp_use; [pure_tac|apply (D_insert g13 c14 bn); auto; rewrite Z14; auto|].
  cbv beta. intros _ c15 (D15 & X15 & T1 & T2 & T3 & T4 & T5).
  assert (M15 : forall r, avail g0 c0 r -> avail g13 c15 r) by (intros r HR; apply T5; rewrite (x_A _ _ _ _ X413) by auto; rewrite A4; auto).
  apply pwp_bind; [pure_tac|]. apply pwp_emitR. apply pwp_ret.
  set (mk := fun r : nat => IPhi r [(vt, c_builder c9); (ve, c_builder c13)]).
  assert (OP : okphi g13 c15 (mk (c_nreg c15))).
  { assert (Y1 : (c_builder c9 < size c14)%nat) by (pose proof (x_size _ _ _ _ XT); lia).
    assert (Y2 : (c_builder c13 < size c14)%nat) by (rewrite Z14; apply (DO_cur _ _ _ D13)).
    intros r k [E|[E|[]]]; injection E as E1 E2; subst k; rewrite T4; (split; [auto|]); apply (x_outs _ _ _ _ X15); auto.
    - rewrite E1 in KT2. exact KT2.
    - rewrite E1 in KE. exact KE. }
  assert (S16 : step g13 c15 g13 (emitted mk c15)) by (eapply step_inst; reflexivity).
  exists g13. split; [eapply DO_inst; eauto; reflexivity|]. split; [|constructor; [|constructor]; apply emitted_avail; [apply (DO_cur _ _ _ D15)|reflexivity]].
  constructor.
  - eapply ext_trans; [apply (s_ext _ _ _ _ S04)|]. eapply ext_trans; [exact X413|]. eapply ext_trans; [apply (s_ext _ _ _ _ S14)|].
    eapply ext_trans; [exact X15|apply (s_ext _ _ _ _ S16)].
  - rewrite (s_locals _ _ _ _ S16), T1, (s_locals _ _ _ _ S14), (s_locals _ _ _ _ S13), (s_locals _ _ _ _ S12). auto.
  - rewrite (s_labels _ _ _ _ S16), T2, (s_labels _ _ _ _ S14), (s_labels _ _ _ _ S13), (s_labels _ _ _ _ S12). auto.
  - intros r HR. apply (s_avail _ _ _ _ S16). auto.
Qed.
Lemma ek_gen_all chk :
  (forall e, (forall x, In x (evars e) -> U x) -> forall W q, ek W (gen chk q e) val1) /\
  (forall l, (forall x, In x (evarss l) -> U x) -> forall W, ek W (genArgs chk l) (fun vs => vs)).
Proof.
  Ltac sub H := eapply ek_bind; [solve [pure_tac]|apply H; intros; auto using in_or_app|intros [? ?]]; unfold val1; cbn [fst app].
  Ltac rv := eapply ek_bind; [solve [pure_tac]|apply ek_rval; inn|intros ?]; cbn [app].
  Ltac eb := eapply ek_bind; [solve [pure_tac]| |intros ?]; cbn [app].
  Ltac ok := apply okv_in; inn.
  apply expr_exprs_ind; cbn [evars evarss]; intros; ugen;
    try match goal with H : forall x, In x (_ ++ _ ++ _) -> _ |- _ => pose proof (fun x i => H x (in_or_app _ _ x (or_introl i)));
          pose proof (fun x i => H x (in_or_app _ _ x (or_intror (in_or_app _ _ x (or_introl i)))));
          pose proof (fun x i => H x (in_or_app _ _ x (or_intror (in_or_app _ _ x (or_intror i))))); clear H end;
    try match goal with H : forall x, In x (_ ++ _) -> _ |- _ => pose proof (fun x i => H x (in_or_app _ _ x (or_introl i)));
          pose proof (fun x i => H x (in_or_app _ _ x (or_intror i))); clear H end.
  - ek_tac.
  - ek_tac.
  - apply ek_genVar. apply H. left. auto.
  - apply ek_genCallee.
  - sub H. rv. ek_tac.
  - sub H. rv. eb; [ek_tac|]. sub H0. rv. eb; [ek_tac|]. ek_tac.
  - sub H. rv. eb; [apply H0; auto|]. eb; [apply ek_doCall; [apply okv_in; apply in_or_app; right; left; reflexivity|]; rewrite Forall_forall; intros y Hy; apply okv_in; apply in_or_app; auto|]. ek_tac.
  - sub H. destruct b; [|ek_tac]. eb; [apply ek_incDec; ok|]. ek_tac.
  - sub H. destruct b; [|ek_tac]. eb; [apply ek_incDec; ok|]. ek_tac.
  - sub H. rv. eb; [apply ek_cmpz; [ok|exact I]|]. ek_tac.
  - sub H. rv. ek_tac.
  - sub H. rv. ek_tac.
  - sub H. destruct b; ek_tac.
  - sub H. rv. sub H0. rv. eb; [apply ek_applyCop; ok|]. ek_tac.
  - (* conditional *) sub H. rv. apply ek_cond; [intros; apply H0; auto|intros; apply H1; auto|inn].
  - sub H. match goal with |- ek _ (if ?x then _ else _) _ => destruct x end; [|ek_tac]. sub H0. rv. destruct op as [o|]; [|ek_tac]. eb; [ek_tac|]. eb; [apply ek_applyCop; ok|]. ek_tac.
  - ek_tac.
  - sub H. rv. eb; [apply H0; auto|]. apply ek_ret. constructor; [apply okv_in; apply in_or_app; right; left; auto|].
    rewrite Forall_forall. intros y Hy. apply okv_in. apply in_or_app. auto.
Qed.
End Expr.
