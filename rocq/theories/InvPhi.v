(** * InvPhi: phi instructions and the edges between the blocks *)
From Coq Require Import List Ascii String ZArith NArith Lia Bool Permutation.
From Verif Require Import Base Lexer IR Builder Expr Stmt Decl Wp Syntax Pure Pwp SpecIR SpecValid ParseGen InvIR InvDecl Built InvTerm.
Import ListNotations.
Open Scope Z_scope.
Open Scope m_scope.

(** Block [i] ends with terminator [t]. *)
Definition ends (c : cstate) (i : nat) (t : term) : Prop := exists b, nth_error (c_blocks c) i = Some b /\ b_term b = Some t.
(** Block [i] can branch to block [j]. *)
Definition edge (c : cstate) (i j : nat) : Prop := exists t, ends c i t /\ In j (successors t).
Definition islab (c : cstate) (i : nat) : Prop := In i (map snd (c_labels c)).
(** No instruction is added to block [e] any more. *)
Definition frozen (P : list nat) (c : cstate) (e : nat) : Prop := e <> c_builder c /\ ~ In e P /\ ~ islab c e /\ (e < List.length (c_blocks c))%nat.
Definition nophi (b : block) : Prop := Forall (fun i => is_phi i = false) (b_insts b).
(** Block [k] begins with its only phi instruction. *)
Definition phi_block (P J : list nat) (c : cstate) (k : nat) (b : block) : Prop :=
  exists r v1 e1 v2 e2 rest, b_insts b = IPhi r [(v1, e1); (v2, e2)] :: rest /\ Forall (fun i => is_phi i = false) rest /\
    e1 <> e2 /\ ends c e1 (TBr k) /\ ends c e2 (TBr k) /\ (forall i, edge c i k -> i = e1 \/ i = e2) /\
    frozen P c e1 /\ frozen P c e2 /\ ~ In k P /\ ~ In k J /\ ~ islab c k.

(** [P]: blocks still to be filled. [J]: blocks statements may branch to.
    [K]: blocks to be filled with the blocks that may branch to them.
    [Z]: finished blocks with the block they branch to. *)
Record PH (P J : list nat) (K : list (nat * list nat)) (Z : list (nat * nat)) (c : cstate) : Prop := {
  PH_builder : (c_builder c < List.length (c_blocks c))%nat;
  PH_lab : forall i, islab c i -> (0 < i < List.length (c_blocks c))%nat /\ ~ In i P;
  PH_P : forall i, In i P -> (0 < i)%nat /\ i <> c_builder c /\ exists n, nth_error (c_blocks c) i = Some (mkBlock n [] None);
  PH_J : forall i, In i J -> (0 < i < List.length (c_blocks c))%nat;
  PH_edges : forall i j, edge c i j -> (0 < j < List.length (c_blocks c))%nat;
  PH_phi : forall k b, nth_error (c_blocks c) k = Some b -> nophi b \/ phi_block P J c k b;
  PH_K : forall k s, In (k, s) K -> (0 < k < List.length (c_blocks c))%nat /\ ~ In k J /\ ~ islab c k /\ (forall i, edge c i k -> In i s) /\
         forall b, nth_error (c_blocks c) k = Some b -> nophi b;
  PH_Z : forall e k, In (e, k) Z -> ends c e (TBr k) /\ frozen P c e
}.

(** ** Steps *)
Lemma nth_upd {A} n f (l : list A) i b : nth_error (upd n f l) i = Some b ->
  (i <> n /\ nth_error l i = Some b) \/ (i = n /\ exists b0, nth_error l n = Some b0 /\ b = f b0).
Proof.
  destruct (Nat.eq_dec i n) as [->|N].
  - rewrite nth_upd_same. destruct (nth_error l n); cbn; [|discriminate]. intros E. injection E as <-. right. eauto.
  - rewrite nth_upd_other; auto.
Qed.
Lemma PH_same P J K Z c c' : c_blocks c' = c_blocks c -> c_builder c' = c_builder c -> c_labels c' = c_labels c -> PH P J K Z c -> PH P J K Z c'.
Proof.
  intros E1 E2 E3 []. unfold phi_block, frozen, edge, ends, islab, nophi in *.
  constructor; unfold phi_block, frozen, edge, ends, islab, nophi; rewrite ?E1, ?E2, ?E3; auto.
Qed.
(** Adding an instruction. *)
Lemma ends_inst c c' i : c_blocks c' = upd (c_builder c) (add_inst i) (c_blocks c) -> forall k t, ends c' k t <-> ends c k t.
Proof.
  intros E k t. unfold ends. rewrite E. split; intros (b & H1 & H2).
  - apply nth_upd in H1. destruct H1 as [[_ H1]|(-> & b0 & H1 & ->)]; eauto.
  - destruct (Nat.eq_dec k (c_builder c)) as [->|N].
    + exists (add_inst i b). rewrite nth_upd_same, H1. auto.
    + exists b. rewrite nth_upd_other; auto.
Qed.
Lemma edge_inst c c' i : c_blocks c' = upd (c_builder c) (add_inst i) (c_blocks c) -> forall k j, edge c' k j <-> edge c k j.
Proof. intros E k j. unfold edge. split; intros (t & H & K); exists t; split; auto; apply (ends_inst _ _ _ E); auto. Qed.
Lemma PH_inst P J K Z c c' i : is_phi i = false -> c_blocks c' = upd (c_builder c) (add_inst i) (c_blocks c) ->
  c_builder c' = c_builder c -> c_labels c' = c_labels c -> PH P J K Z c -> PH P J K Z c'.
Proof.
  intros HI E1 E2 E3 []. pose proof (ends_inst _ _ _ E1) as EE. pose proof (edge_inst _ _ _ E1) as EG.
  assert (LE : List.length (c_blocks c') = List.length (c_blocks c)) by (rewrite E1; apply upd_length).
  assert (IL : forall k, islab c' k <-> islab c k) by (unfold islab; rewrite E3; tauto).
  assert (FR : forall e, frozen P c e -> frozen P c' e) by (intros e; unfold frozen; rewrite E2, IL, LE; auto).
  constructor; rewrite ?E2, ?LE; auto.
  - intros k H. apply PH_lab0. apply IL. auto.
  - intros k H. destruct (PH_P0 k H) as (H1 & H2 & n & H3). split; auto. split; auto. exists n. rewrite E1, nth_upd_other; auto.
  - intros k j H. apply (PH_edges0 k). apply EG. auto.
  - intros k b H. rewrite E1 in H. 
    assert (PB : forall b0, b_insts b = b_insts b0 \/ b_insts b = b_insts b0 ++ [i] -> phi_block P J c k b0 -> phi_block P J c' k b).
    { intros b0 HB (r & v1 & e1 & v2 & e2 & rest & Q1 & Q2 & Q3 & Q4 & Q5 & Q6 & Q7 & Q8 & Q9 & Q10 & Q11).
      assert (exists rest', b_insts b = IPhi r [(v1, e1); (v2, e2)] :: rest' /\ Forall (fun i => is_phi i = false) rest') as (rest' & R1 & R2).
      { destruct HB as [->| ->]; rewrite Q1; [eauto|]. exists (rest ++ [i])%list. split; auto. apply Forall_app. auto. }
      exists r, v1, e1, v2, e2, rest'. rewrite !EE, IL. do 5 (split; auto). split; [intros x Hx; apply Q6; apply EG; auto|]. auto 10. }
    apply nth_upd in H. destruct H as [[_ H]|(-> & b0 & H & ->)].
    + destruct (PH_phi0 k b H); [auto|right; eauto].
    + destruct (PH_phi0 _ b0 H) as [N|N]; [left|right; apply (PB b0); [right; reflexivity|exact N]].
      unfold nophi. cbn. apply Forall_app. split; [exact N|auto].
  - intros k s H. destruct (PH_K0 k s H) as (H1 & H2 & H3 & H4 & H5). rewrite IL. do 3 (split; auto).
    split; [intros x Hx; apply H4; apply EG; auto|].
    intros b Hb. rewrite E1 in Hb. apply nth_upd in Hb. destruct Hb as [[_ Hb]|(-> & b0 & Hb & ->)]; auto.
    unfold nophi. cbn. apply Forall_app. split; [apply (H5 b0); auto|auto].
  - intros e k H. destruct (PH_Z0 e k H). rewrite EE. auto.
Qed.
(** Ending the current block. *)
Lemma ends_term c c' t : c_blocks c' = upd (c_builder c) (put_term t) (c_blocks c) -> (c_builder c < List.length (c_blocks c))%nat ->
  forall k x, ends c' k x <-> (k <> c_builder c /\ ends c k x) \/ (k = c_builder c /\ x = t).
Proof.
  intros E L k x. unfold ends. rewrite E. split.
  - intros (b & H1 & H2). apply nth_upd in H1. destruct H1 as [[N H1]|(-> & b0 & H1 & ->)]; eauto.
    right. cbn in H2. split; congruence.
  - intros [(N & b & H1 & H2)|[-> ->]].
    + exists b. rewrite nth_upd_other; auto.
    + destruct (nth_error (c_blocks c) (c_builder c)) as [b|] eqn:EB; [|apply nth_error_None in EB; lia].
      exists (put_term t b). rewrite nth_upd_same, EB. auto.
Qed.
Lemma edge_term c c' t : c_blocks c' = upd (c_builder c) (put_term t) (c_blocks c) -> (c_builder c < List.length (c_blocks c))%nat ->
  forall k j, edge c' k j <-> (k <> c_builder c /\ edge c k j) \/ (k = c_builder c /\ In j (successors t)).
Proof.
  intros E L k j. unfold edge. split.
  - intros (x & H & I). apply (ends_term _ _ _ E L) in H. destruct H as [[N H]|[-> ->]]; eauto.
  - intros [[N (x & H & I)]|[-> I]].
    + exists x. split; auto. apply (ends_term _ _ _ E L). auto.
    + exists t. split; auto. apply (ends_term _ _ _ E L). auto.
Qed.
Definition addsrc (b : nat) (ts : list nat) (K : list (nat * list nat)) : list (nat * list nat) :=
  map (fun p => (fst p, if existsb (Nat.eqb (fst p)) ts then b :: snd p else snd p)) K.
Lemma PH_term P J K Z c c' t : (forall j, In j (successors t) -> In j J \/ islab c j \/ In j (map fst K)) ->
  c_blocks c' = upd (c_builder c) (put_term t) (c_blocks c) ->
  c_builder c' = c_builder c -> c_labels c' = c_labels c -> PH P J K Z c -> PH P J (addsrc (c_builder c) (successors t) K) Z c'.
Proof.
  intros HJ E1 E2 E3 [].
  pose proof (ends_term _ _ _ E1 PH_builder0) as EE. pose proof (edge_term _ _ _ E1 PH_builder0) as EG.
  assert (LE : List.length (c_blocks c') = List.length (c_blocks c)) by (rewrite E1; apply upd_length).
  assert (IL : forall k, islab c' k <-> islab c k) by (unfold islab; rewrite E3; tauto).
  assert (FR : forall e, frozen P c e -> frozen P c' e) by (intros e; unfold frozen; rewrite E2, IL, LE; auto).
  assert (FE : forall e x, frozen P c e -> ends c e x -> ends c' e x) by (intros e x F H; apply EE; left; split; auto; apply F).
  assert (KIN : forall k, In k (map fst K) -> exists s, In (k, s) K).
  { intros k H. apply in_map_iff in H. destruct H as ([k' s] & <- & H). eauto. }
  constructor; rewrite ?E2, ?LE; auto.
  - intros k H. apply PH_lab0. apply IL. auto.
  - intros k H. destruct (PH_P0 k H) as (H1 & H2 & n & H3). split; auto. split; auto. exists n. rewrite E1, nth_upd_other; auto.
  - intros k j H. apply EG in H. destruct H as [[_ H]|[-> H]]; [eauto|]. destruct (HJ j H) as [Q|[Q|Q]].
    + auto. + apply PH_lab0. auto. + apply KIN in Q. destruct Q as (s & Q). apply (PH_K0 _ _ Q).
  - intros k b H. rewrite E1 in H.
    assert (PB : forall b0, nth_error (c_blocks c) k = Some b0 -> b_insts b = b_insts b0 -> phi_block P J c k b0 -> phi_block P J c' k b).
    { intros b0 HB0 HB (r & v1 & e1 & v2 & e2 & rest & Q1 & Q2 & Q3 & Q4 & Q5 & Q6 & Q7 & Q8 & Q9 & Q10 & Q11).
      exists r, v1, e1, v2, e2, rest. rewrite HB, IL. do 3 (split; auto). split; [auto|]. split; [auto|]. split; [|auto 10].
      intros x Hx. apply EG in Hx. destruct Hx as [[_ Hx]|[-> Hx]]; auto. exfalso.
      destruct (HJ k Hx) as [Q|[Q|Q]]; auto. apply KIN in Q. destruct Q as (s & Q).
      destruct (PH_K0 _ _ Q) as (_ & _ & _ & _ & R). specialize (R b0 HB0).
      unfold nophi in R. rewrite Q1 in R. inversion R. discriminate. }
    apply nth_upd in H. destruct H as [[_ H]|(-> & b0 & H & ->)].
    + destruct (PH_phi0 k b H); [auto|right; eauto].
    + destruct (PH_phi0 _ b0 H) as [N|N]; [left; exact N|right; eapply PB; eauto].
  - intros k s H. unfold addsrc in H. apply in_map_iff in H. destruct H as ([k0 s0] & E & H). cbn [fst snd] in E. injection E as -> <-.
    destruct (PH_K0 k s0 H) as (H1 & H2 & H3 & H4 & H5). rewrite IL. do 3 (split; auto). split.
    + intros x Hx. apply EG in Hx. destruct Hx as [[_ Hx]|[-> Hx]].
      * destruct (existsb _ _); [right|]; auto.
      * replace (existsb (Nat.eqb k) (successors t)) with true; [left; auto|]. symmetry. apply existsb_exists. exists k. split; auto. apply Nat.eqb_refl.
    + intros b Hb. rewrite E1 in Hb. apply nth_upd in Hb. destruct Hb as [[_ Hb]|(-> & b0 & Hb & ->)]; auto. apply (H5 b0); auto.
  - intros e k H. destruct (PH_Z0 e k H). auto.
Qed.
Lemma addsrc_none b ts : forall K, (forall j, In j ts -> ~ In j (map fst K)) -> addsrc b ts K = K.
Proof.
  induction K as [|[k s] K IH]; intros H; cbn; auto. cbn in H. fold (addsrc b ts K). rewrite IH.
  - destruct (existsb _ _) eqn:E; auto. apply existsb_exists in E. destruct E as (x & E1 & E2). apply Nat.eqb_eq in E2. subst x.
    exfalso. apply (H k); auto.
  - intros j Hj X. apply (H j); auto.
Qed.
(** A new block. *)
Lemma PH_block P J K Z c c' n : c_blocks c' = (c_blocks c ++ [mkBlock n [] None])%list ->
  c_builder c' = c_builder c -> c_labels c' = c_labels c -> PH P J K Z c -> PH (List.length (c_blocks c) :: P) J K Z c'.
Proof.
  intros E1 E2 E3 [].
  assert (LE : List.length (c_blocks c') = S (List.length (c_blocks c))) by (rewrite E1, app_length; cbn; lia).
  assert (NE : forall k, (k < List.length (c_blocks c))%nat -> nth_error (c_blocks c') k = nth_error (c_blocks c) k) by (intros; rewrite E1; apply nth_error_app1; auto).
  assert (NL : nth_error (c_blocks c') (List.length (c_blocks c)) = Some (mkBlock n [] None)).
  { rewrite E1, nth_error_app2, Nat.sub_diag; auto. }
  assert (EE : forall k x, ends c' k x <-> ends c k x).
  { intros k x. unfold ends. split; intros (b & H1 & H2).
    - rewrite E1 in H1. apply nth_snoc in H1. destruct H1 as [H1|[_ ->]]; [eauto|discriminate].
    - exists b. rewrite NE; auto. eapply nth_lt; eauto. }
  assert (EG : forall k x, edge c' k x <-> edge c k x) by (intros; unfold edge; split; intros (t & H & I); exists t; split; auto; apply EE; auto).
  assert (IL : forall k, islab c' k <-> islab c k) by (unfold islab; rewrite E3; tauto).
  assert (FR : forall e, frozen P c e -> frozen (List.length (c_blocks c) :: P) c' e).
  { intros e (F1 & F2 & F3 & F4). unfold frozen. rewrite E2, IL, LE. repeat apply conj; auto. cbn. intros [|]; auto. lia. }
  constructor; rewrite ?E2, ?LE.
  - lia.
  - intros i H. apply IL in H. destruct (PH_lab0 i H). split; [lia|]. cbn. intros [|]; [lia|auto].
  - intros i [<-|H].
    + split; [lia|]. split; [lia|]. eauto.
    + destruct (PH_P0 i H) as (H1 & H2 & m & H3). split; auto. split; auto. exists m. rewrite NE; auto. eapply nth_lt; eauto.
  - intros i H. specialize (PH_J0 i H). lia.
  - intros i j H. apply EG in H. specialize (PH_edges0 _ _ H). lia.
  - intros k b H. rewrite E1 in H. apply nth_snoc in H. destruct H as [H|[-> ->]]; [|left; constructor].
    destruct (PH_phi0 k b H) as [|(r & v1 & e1 & v2 & e2 & rest & Q1 & Q2 & Q3 & Q4 & Q5 & Q6 & Q7 & Q8 & Q9 & Q10 & Q11)]; auto. right.
    exists r, v1, e1, v2, e2, rest. rewrite !EE, IL. do 5 (split; auto). split; [intros x Hx; apply Q6; apply EG; auto|]. split; auto. split; auto.
    split; auto. apply nth_lt in H. cbn. intros [|]; [lia|auto].
  - intros k s H. destruct (PH_K0 k s H) as (H1 & H2 & H3 & H4 & H5). rewrite IL. split; [lia|]. do 2 (split; auto). split; [intros x Hx; apply H4; apply EG; auto|].
    intros b. rewrite NE; [auto|lia].
  - intros e k H. destruct (PH_Z0 e k H). rewrite EE. auto.
Qed.
(** Blocks of the current state that have just been made. *)
Lemma PH_addJ P J K Z c b : PH P J K Z c -> (0 < b < List.length (c_blocks c))%nat -> ~ In b (map fst K) ->
  (forall bl, nth_error (c_blocks c) b = Some bl -> nophi bl) -> PH P (b :: J) K Z c.
Proof.
  intros [] HB NK NP. constructor; auto.
  - intros i [<-|H]; auto.
  - intros k bl H. destruct (PH_phi0 k bl H) as [|PB]; auto. destruct (Nat.eq_dec k b) as [->|N]; [left; apply NP; auto|]. right.
    destruct PB as (r & v1 & e1 & v2 & e2 & rest & Q1 & Q2 & Q3 & Q4 & Q5 & Q6 & Q7 & Q8 & Q9 & Q10 & Q11).
    exists r, v1, e1, v2, e2, rest. do 9 (split; auto). split; auto. cbn. intros [|]; auto.
  - intros k s H. destruct (PH_K0 k s H) as (H1 & H2 & H3 & H4 & H5). split; auto. split; [|auto].
    cbn. intros [<-|]; auto. apply NK. apply in_map_iff. exists (b, s). auto.
Qed.
Lemma PH_addK P J K Z c b s : PH P J K Z c -> In b P -> ~ In b J -> (forall i, edge c i b -> In i s) -> PH P J ((b, s) :: K) Z c.
Proof.
  intros [] HB NJ HE. constructor; auto. intros k s' [E|H]; [|auto]. injection E as <- <-.
  destruct (PH_P0 b HB) as (H1 & H2 & n & H3). split; [split; auto; eapply nth_lt; eauto|]. split; auto.
  split; [intros X; apply PH_lab0 in X; tauto|]. split; auto. intros bl Hb. rewrite H3 in Hb. injection Hb as <-. constructor.
Qed.
Lemma PH_dropK P J K Z c p : PH P J (p :: K) Z c -> PH P J K Z c.
Proof. intros []. constructor; auto. intros k s H. apply PH_K0. right. auto. Qed.
Lemma PH_dropJ P J J' K Z c : incl J' J -> PH P J K Z c -> PH P J' K Z c.
Proof.
  intros I []. constructor; auto.
  - intros k b H. destruct (PH_phi0 k b H) as [|(r & v1 & e1 & v2 & e2 & rest & Q1 & Q2 & Q3 & Q4 & Q5 & Q6 & Q7 & Q8 & Q9 & Q10 & Q11)]; auto.
    right. exists r, v1, e1, v2, e2, rest. do 9 (split; auto).
  - intros k s H. destruct (PH_K0 k s H) as (H1 & H2 & H3 & H4 & H5). split; auto.
Qed.
Lemma PH_addZ P J K Z c e k : PH P J K Z c -> ends c e (TBr k) -> frozen P c e -> PH P J K ((e, k) :: Z) c.
Proof. intros [] H F. constructor; auto. intros e' k' [E|H']; auto. injection E as <- <-. auto. Qed.
Lemma PH_dropZ P J K Z c p : PH P J K (p :: Z) c -> PH P J K Z c.
Proof. intros []. constructor; auto. intros e k H. apply PH_Z0. right. auto. Qed.

(** Moving to a block to be filled. *)
Lemma PH_insert P P' J K Z c c' b : In b P -> ~ In b P' -> incl P' P -> c_blocks c' = c_blocks c -> c_builder c' = b -> c_labels c' = c_labels c ->
  PH P J K Z c -> PH P' J K Z c'.
Proof.
  intros HB NB IP E1 E2 E3 [].
  assert (IL : forall k, islab c' k <-> islab c k) by (unfold islab; rewrite E3; tauto).
  assert (EE : forall k x, ends c' k x <-> ends c k x) by (intros; unfold ends; rewrite E1; tauto).
  assert (EG : forall k x, edge c' k x <-> edge c k x) by (intros; unfold edge; split; intros (t & H & I); exists t; split; auto; apply EE; auto).
  assert (FR : forall e, frozen P c e -> frozen P' c' e).
  { intros e (F1 & F2 & F3 & F4). unfold frozen. rewrite E2, IL, E1. repeat apply conj; auto. intros ->. auto. }
  constructor; rewrite ?E1; auto.
  - rewrite E2. destruct (PH_P0 b HB) as (_ & _ & n & H). eapply nth_lt; eauto.
  - intros i H. apply IL in H. destruct (PH_lab0 i H). auto.
  - intros i H. destruct (PH_P0 i (IP i H)) as (H1 & H2 & H3). rewrite E2. split; auto. split; auto. intros ->. auto.
  - intros i j H. apply EG in H. eauto.
  - intros k bl H. destruct (PH_phi0 k bl H) as [|(r & v1 & e1 & v2 & e2 & rest & Q1 & Q2 & Q3 & Q4 & Q5 & Q6 & Q7 & Q8 & Q9 & Q10 & Q11)]; auto.
    right. exists r, v1, e1, v2, e2, rest. rewrite !EE, IL. do 5 (split; auto). split; [intros x Hx; apply Q6; apply EG; auto|]. auto 10.
  - intros k s H. destruct (PH_K0 k s H) as (H1 & H2 & H3 & H4 & H5). rewrite IL. do 3 (split; auto). split; auto. intros x Hx; apply H4; apply EG; auto.
  - intros e k H. destruct (PH_Z0 e k H). rewrite EE. auto.
Qed.
(** Moving to the block of a label. *)
Lemma PH_visit P J K Z c c' b : islab c b -> c_blocks c' = c_blocks c -> c_builder c' = b -> c_labels c' = c_labels c ->
  PH P J K Z c -> PH P J K Z c'.
Proof.
  intros HB E1 E2 E3 [].
  assert (IL : forall k, islab c' k <-> islab c k) by (unfold islab; rewrite E3; tauto).
  assert (EE : forall k x, ends c' k x <-> ends c k x) by (intros; unfold ends; rewrite E1; tauto).
  assert (EG : forall k x, edge c' k x <-> edge c k x) by (intros; unfold edge; split; intros (t & H & I); exists t; split; auto; apply EE; auto).
  assert (FR : forall e, frozen P c e -> frozen P c' e).
  { intros e (F1 & F2 & F3 & F4). unfold frozen. rewrite E2, IL, E1. repeat apply conj; auto. intros ->. auto. }
  constructor; rewrite ?E1; auto.
  - rewrite E2. apply PH_lab0. auto.
  - intros i H. apply IL in H. destruct (PH_lab0 i H). auto.
  - intros i H. destruct (PH_P0 i H) as (H1 & H2 & H3). rewrite E2. split; auto. split; auto. intros ->. apply (PH_lab0 b HB); auto.
  - intros i j H. apply EG in H. eauto.
  - intros k bl H. destruct (PH_phi0 k bl H) as [|(r & v1 & e1 & v2 & e2 & rest & Q1 & Q2 & Q3 & Q4 & Q5 & Q6 & Q7 & Q8 & Q9 & Q10 & Q11)]; auto.
    right. exists r, v1, e1, v2, e2, rest. rewrite !EE, IL. do 5 (split; auto). split; [intros x Hx; apply Q6; apply EG; auto|]. auto 10.
  - intros k s H. destruct (PH_K0 k s H) as (H1 & H2 & H3 & H4 & H5). rewrite IL. do 3 (split; auto). split; auto. intros x Hx; apply H4; apply EG; auto.
  - intros e k H. destruct (PH_Z0 e k H). rewrite EE. auto.
Qed.
(** The block made last becomes the block of a label. *)
Lemma PH_label P J K Z c c' b n : PH (b :: P) J K Z c -> ~ In b P -> ~ In b J -> ~ In b (map fst K) ->
  c_blocks c' = c_blocks c -> c_builder c' = c_builder c -> c_labels c' = (n, b) :: c_labels c -> PH P J K Z c'.
Proof.
  intros [] NP NJ NK E1 E2 E3.
  assert (IL : forall k, islab c' k <-> b = k \/ islab c k) by (unfold islab; rewrite E3; cbn; tauto).
  assert (EE : forall k x, ends c' k x <-> ends c k x) by (intros; unfold ends; rewrite E1; tauto).
  assert (EG : forall k x, edge c' k x <-> edge c k x) by (intros; unfold edge; split; intros (t & H & I); exists t; split; auto; apply EE; auto).
  assert (FR : forall e, frozen (b :: P) c e -> frozen P c' e).
  { intros e (F1 & F2 & F3 & F4). unfold frozen. rewrite E2, IL, E1. cbn in F2. repeat apply conj; auto. intros [|]; auto. }
  destruct (PH_P0 b (or_introl eq_refl)) as (B1 & B2 & m & B3).
  constructor; rewrite ?E1, ?E2; auto.
  - intros i H. apply IL in H. destruct H as [<-|H].
    + split; auto. split; auto. eapply nth_lt; eauto.
    + destruct (PH_lab0 i H). split; auto. cbn in *. auto.
  - intros i H. apply PH_P0. right. auto.
  - intros i j H. apply EG in H. eauto.
  - intros k bl H. destruct (PH_phi0 k bl H) as [|(r & v1 & e1 & v2 & e2 & rest & Q1 & Q2 & Q3 & Q4 & Q5 & Q6 & Q7 & Q8 & Q9 & Q10 & Q11)]; auto.
    cbn in Q9. right. exists r, v1, e1, v2, e2, rest. rewrite !EE, IL. do 5 (split; auto). split; [intros x Hx; apply Q6; apply EG; auto|].
    split; auto. split; auto. split; [intros X; apply Q9; auto|]. split; auto. intros [X|X]; auto.
  - intros k s H. destruct (PH_K0 k s H) as (H1 & H2 & H3 & H4 & H5). rewrite IL. split; auto. split; auto. split.
    + intros [<-|]; auto. apply NK. apply in_map_iff. exists (b, s). auto.
    + split; auto. intros x Hx; apply H4; apply EG; auto.
  - intros e k H. destruct (PH_Z0 e k H). rewrite EE. auto.
Qed.
(** The phi instruction. *)
Lemma PH_phi_inst P J K Z c c' r v1 e1 v2 e2 b0 : b_insts b0 = [] -> nth_error (c_blocks c) (c_builder c) = Some b0 ->
  PH P J ((c_builder c, [e2; e1]) :: K) ((e2, c_builder c) :: (e1, c_builder c) :: Z) c -> e1 <> e2 -> ~ In (c_builder c) (map fst K) ->
  c_blocks c' = upd (c_builder c) (add_inst (IPhi r [(v1, e1); (v2, e2)])) (c_blocks c) ->
  c_builder c' = c_builder c -> c_labels c' = c_labels c -> PH P J K Z c'.
Proof.
  intros B0 B1 [] NE NK E1 E2 E3. pose proof (ends_inst _ _ _ E1) as EE. pose proof (edge_inst _ _ _ E1) as EG.
  assert (LE : List.length (c_blocks c') = List.length (c_blocks c)) by (rewrite E1; apply upd_length).
  assert (IL : forall k, islab c' k <-> islab c k) by (unfold islab; rewrite E3; tauto).
  assert (FR : forall e, frozen P c e -> frozen P c' e) by (intros e; unfold frozen; rewrite E2, IL, LE; auto).
  constructor; rewrite ?E2, ?LE; auto.
  - intros k H. apply PH_lab0. apply IL. auto.
  - intros k H. destruct (PH_P0 k H) as (H1 & H2 & n & H3). split; auto. split; auto. exists n. rewrite E1, nth_upd_other; auto.
  - intros k j H. apply (PH_edges0 k). apply EG. auto.
  - intros k b H. rewrite E1 in H. apply nth_upd in H. destruct H as [[N H]|(-> & b1 & H & ->)].
    + destruct (PH_phi0 k b H) as [|(r' & v1' & e1' & v2' & e2' & rest & Q1 & Q2 & Q3 & Q4 & Q5 & Q6 & Q7 & Q8 & Q9 & Q10 & Q11)]; auto.
      right. exists r', v1', e1', v2', e2', rest. rewrite !EE, IL. do 5 (split; auto). split; [intros x Hx; apply Q6; apply EG; auto|]. auto 10.
    + right. rewrite B1 in H. injection H as <-. exists r, v1, e1, v2, e2, []. cbn. rewrite B0. rewrite !EE, IL.
      destruct (PH_Z0 e1 (c_builder c)) as [Z1 Z2]; [right; left; auto|].
      destruct (PH_Z0 e2 (c_builder c)) as [Z3 Z4]; [left; auto|].
      destruct (PH_K0 (c_builder c) [e2; e1]) as (K1 & K2 & K3 & K4 & K5); [left; auto|].
      do 5 (split; auto). split; [intros x Hx; apply EG in Hx; destruct (K4 x Hx) as [|[|[]]]; auto|].
      split; auto. split; auto. split; [|auto]. intros X. destruct (PH_P0 _ X) as (_ & X2 & _). auto.
  - intros k s H. destruct (PH_K0 k s (or_intror H)) as (H1 & H2 & H3 & H4 & H5). rewrite IL. do 3 (split; auto).
    split; [intros x Hx; apply H4; apply EG; auto|].
    intros b Hb. rewrite E1 in Hb. apply nth_upd in Hb. destruct Hb as [[_ Hb]|(-> & b1 & Hb & ->)]; auto.
    exfalso. apply NK. apply in_map_iff. exists (c_builder c, s). auto.
  - intros e k H. destruct (PH_Z0 e k) as [H1 H2]; [right; right; auto|]. rewrite EE. auto.
Qed.

(** ** Expressions *)
Definition kpost {A} (P J : list nat) K Z (c : cstate) (_ : A) (c' : cstate) : Prop :=
  PH P J K Z c' /\ c_labels c' = c_labels c /\ (~ islab c (c_builder c) -> ~ islab c' (c_builder c')).
Definition pk {A} (m : C A) : Prop := forall P J K Z c, PH P J K Z c -> pwp m (kpost P J K Z c) c.
Lemma pk_bind {A B} (m : C A) (f : A -> C B) : pure m -> pk m -> (forall a, pk (f a)) -> pk (bind m f).
Proof.
  intros HP H1 H2 P J K Z c H. eapply pwp_use; [auto|apply H1; eauto|]. cbv beta. intros a c1 (Q1 & Q2 & Q3).
  eapply pwp_mono; [apply H2; eauto|]. cbv beta. intros b c2 (R1 & R2 & R3). split; auto. split; [congruence|auto].
Qed.
Lemma pk_ret {A} (a : A) : pk (ret a). Proof. intros P J K Z c H. apply pwp_ret. split; auto. Qed.
Lemma pk_err {A} e : pk (@errorf st A e). Proof. intros P J K Z c H. apply pwp_err. Qed.
Lemma pk_get : pk get. Proof. intros P J K Z c H. apply pwp_get. split; auto. Qed.
Lemma islab_same c c' : c_labels c' = c_labels c -> c_builder c' = c_builder c -> ~ islab c (c_builder c) -> ~ islab c' (c_builder c').
Proof. unfold islab. intros -> ->. auto. Qed.
Lemma pk_modify f : (forall c, same_code c (f c)) -> pk (modify f).
Proof.
  intros HS P J K Z c H. apply pwp_modify. destruct (HS c) as (E1 & E2 & E3). split; [eapply PH_same; eauto|]. split; [auto|eapply islab_same; eauto].
Qed.
Lemma pk_emit i : is_phi i = false -> pk (emit i).
Proof. intros HI P J K Z c H. apply pwp_emit. split; [apply (PH_inst _ _ _ _ c _ i); auto|]. auto. Qed.
Lemma pk_emitR i : (forall r, is_phi (i r) = false) -> pk (emitR i).
Proof. intros HI P J K Z c H. apply pwp_emitR. split; [apply (PH_inst _ _ _ _ c _ (i (c_nreg c))); auto|]. auto. Qed.
Lemma pk_GetInsertBlock : pk GetInsertBlock.
Proof. intros P J K Z c H. apply pwp_GetInsertBlock. split; auto. Qed.
Lemma pk_bind_local n v : pk (bind_local n v).
Proof. apply pk_modify. repeat split. Qed.
Lemma pk_termIsNil : pk termIsNil.
Proof. intros P J K Z c H. apply pwp_termIsNil. intros. split; auto. Qed.
Lemma pk_nextLabelID : pk nextLabelID.
Proof. intros P J K Z c H. apply pwp_nextLabelID. split; [apply (PH_same _ _ _ _ c); auto|]. auto. Qed.
#[export] Hint Resolve pk_ret pk_err pk_get pk_GetInsertBlock pk_bind_local pk_termIsNil pk_nextLabelID : pk.
Ltac pk_tac :=
  repeat (first
    [ solve [auto with pk nocore]
    | assumption
    | match goal with H : forall _, _ |- pk _ => solve [apply H; auto] end
    | solve [apply pk_emitR; intros ?; reflexivity]
    | solve [apply pk_emit; reflexivity]
    | solve [apply pk_modify; intros ?; repeat split]
    | apply pk_bind; [solve [pure_tac]| |intros ?]
    | match goal with
      | |- pk (let _ := _ in _) => cbv zeta
      | |- pk (if ?x then _ else _) => destruct x
      | |- pk (match ?x with _ => _ end) => destruct x
      end ]).
Lemma pk_CreateStringConstant s : pk (CreateStringConstant s).
Proof. unfold CreateStringConstant. pk_tac. Qed.
Lemma pk_GetOrDeclareFunction n : pk (GetOrDeclareFunction n).
Proof. unfold GetOrDeclareFunction. cbv zeta. pk_tac. Qed.
Lemma pk_externName n : pk (externName n).
Proof. unfold externName. cbv zeta. pk_tac. Qed.
#[export] Hint Resolve pk_CreateStringConstant pk_GetOrDeclareFunction pk_externName : pk.
Lemma pk_GetAddress n : pk (GetAddress n). Proof. unfold GetAddress. pk_tac. Qed.
#[export] Hint Resolve pk_GetAddress : pk.
Lemma pk_genVar q n : pk (genVar q n). Proof. unfold genVar. pk_tac. Qed.
Lemma pk_genCallee n : pk (genCallee n). Proof. unfold genCallee. pk_tac. Qed.
Lemma pk_rval v b : pk (rval v b). Proof. unfold rval. pk_tac. Qed.
#[export] Hint Resolve pk_genVar pk_genCallee pk_rval : pk.
Lemma pk_cmpz p a b : pk (cmpz p a b). Proof. unfold cmpz. pk_tac. Qed.
#[export] Hint Resolve pk_cmpz : pk.
Lemma pk_applyCop o a b : pk (applyCop o a b). Proof. destruct o; cbn [applyCop]; pk_tac. Qed.
Lemma pk_doCall f a : pk (doCall f a). Proof. unfold doCall. cbv zeta. pk_tac. Qed.
Lemma pk_incDec o p : pk (incDec o p). Proof. unfold incDec. pk_tac. Qed.
Lemma pk_DeclareLocal n : pk (DeclareLocal n). Proof. unfold DeclareLocal. pk_tac. Qed.
Lemma pk_DeclareLocalArray n z : pk (DeclareLocalArray n z). Proof. unfold DeclareLocalArray. cbv zeta. pk_tac. Qed.
#[export] Hint Resolve pk_applyCop pk_doCall pk_incDec pk_DeclareLocal pk_DeclareLocalArray : pk.
Lemma pk_declareAutos l : pk (declareAutos l).
Proof. induction l as [|[n z] l IH]; cbn [declareAutos]; pk_tac. Qed.
Lemma pk_checkAutos l : forall seen, pk (checkAutos seen l).
Proof. induction l as [|[n z] l IH]; intros seen; cbn [checkAutos]; pk_tac. Qed.
Lemma pk_genExtrn l : pk (genExtrn l).
Proof. induction l as [|n l IH]; cbn [genExtrn]; pk_tac. Qed.
#[export] Hint Resolve pk_declareAutos pk_checkAutos pk_genExtrn : pk.

Lemma L_NewBlock P J K Z n c : PH P J K Z c -> pwp (NewBlock n) (fun b c' => PH (b :: P) J K Z c' /\ (~ In b P /\ ~ In b J /\ ~ In b (map fst K)) /\
  (forall i, ~ edge c' i b) /\ c_labels c' = c_labels c /\ c_builder c' = c_builder c) c.
Proof.
  intros H. apply pwp_NewBlock. pose proof H as [].
  assert (H' : PH (List.length (c_blocks c) :: P) J K Z (set_blocks (c_blocks c ++ [mkBlock n [] None]) c)) by (eapply PH_block; eauto; reflexivity).
  split; auto. split; [|split; auto].
  - repeat apply conj.
    + intros X. destruct (PH_P0 _ X) as (_ & _ & m & E). apply nth_lt in E. lia.
    + intros X. apply PH_J0 in X. lia.
    + intros X. apply in_map_iff in X. destruct X as ([k s] & E & X). cbn in E. apply PH_K0 in X. lia.
  - intros i (t & (b & E1 & E2) & E3). cbn in E1. apply nth_snoc in E1. destruct E1 as [E1|[_ ->]]; [|discriminate].
    assert (X : edge c i (List.length (c_blocks c))) by (exists t; split; auto; exists b; auto). apply PH_edges0 in X. lia.
Qed.
Lemma L_setTerm P J K Z t c : PH P J K Z c -> (forall j, In j (successors t) -> In j J \/ islab c j) -> (forall j, In j (successors t) -> ~ In j (map fst K)) ->
  pwp (setTerm t) (fun _ c' => PH P J K Z c' /\ c_labels c' = c_labels c /\ c_builder c' = c_builder c) c.
Proof.
  intros H HJ HK. apply pwp_setTerm. split; [|split; reflexivity]. rewrite <- (addsrc_none (c_builder c) (successors t) K HK).
  eapply PH_term; eauto; try reflexivity. intros j X. destruct (HJ j X); auto.
Qed.
Lemma L_insert P P' J K Z b c : PH P J K Z c -> In b P -> ~ In b P' -> incl P' P ->
  pwp (SetInsertPoint b) (fun _ c' => PH P' J K Z c' /\ c_blocks c' = c_blocks c /\ c_labels c' = c_labels c /\ c_builder c' = b) c.
Proof. intros H HB NB HI. apply pwp_SetInsertPoint. split; [|repeat split]. apply (PH_insert P P' J K Z c _ b); auto. Qed.
Ltac pks L := eapply pwp_use; [solve [pure_tac]|apply L; eassumption|cbv beta].

Lemma pk_cond v q chk (b d : expr) : pk (gen chk false b) -> pk (gen chk q d) -> pk (
      id <- nextLabelID ;;
      bThen <- NewBlock ("cond.then." ++ dec id) ;;
      bElse <- NewBlock ("cond.else." ++ dec id) ;;
      bEnd <- NewBlock ("cond.end." ++ dec id) ;;
      cmp <- emitR (fun r => ICmp r PNE v (VInt 0)) ;;
      setTerm (TCondBr cmp bThen bElse) ;;;
      SetInsertPoint bThen ;;;
      '(w, l) <- gen chk false b ;; vThen <- rval w l ;;
      eThen <- GetInsertBlock ;;
      setTerm (TBr bEnd) ;;;
      SetInsertPoint bElse ;;;
      '(x, l) <- gen chk q d ;; vElse <- rval x l ;;
      eElse <- GetInsertBlock ;;
      setTerm (TBr bEnd) ;;;
      SetInsertPoint bEnd ;;;
      p <- emitR (fun r => IPhi r [(vThen, eThen); (vElse, eElse)]) ;;
      ret (p, false)).
Proof.
  intros HB HD P J K Z c0 H0.
  pks pk_nextLabelID. intros id c3 (H3 & L3 & N3).
  pks L_NewBlock. intros b1 c4 (H4 & (X1 & X2 & X3) & X4 & L4 & B4).
  pks L_NewBlock. intros b2 c5 (H5 & (Y1 & Y2 & Y3) & Y4 & L5 & B5).
  pks L_NewBlock. intros b3 c6 (H6 & (Z1 & Z2 & Z3) & Z4 & L6 & B6).
  cbn in Y1, Z1.
  assert (NP : forall x, In x (b3 :: b2 :: b1 :: P) -> forall bl, nth_error (c_blocks c6) x = Some bl -> nophi bl).
  { intros x Hx bl Hb. destruct (PH_P _ _ _ _ _ H6 x Hx) as (_ & _ & n & E). rewrite E in Hb. injection Hb as <-. constructor. }
  assert (RG : forall x, In x (b3 :: b2 :: b1 :: P) -> (0 < x < List.length (c_blocks c6))%nat).
  { intros x Hx. destruct (PH_P _ _ _ _ _ H6 x Hx) as (? & _ & n & E). apply nth_lt in E. auto. }
  apply (PH_addJ _ _ _ _ _ b1) in H6; auto; [|apply RG; cbn; auto|apply NP; cbn; auto].
  apply (PH_addJ _ _ _ _ _ b2) in H6; auto; [|apply RG; cbn; auto|apply NP; cbn; auto].
  apply (PH_addK _ _ _ _ _ b3 []) in H6; [|cbn; auto|cbn; intuition congruence|intros i E; destruct (Z4 i E)].
  eapply pwp_use; [solve [pure_tac]|apply pk_emitR; [reflexivity|eassumption]|cbv beta; intros cmp c7 (H7 & L7 & N7)].
  eapply pwp_use; [solve [pure_tac]|apply L_setTerm; [eassumption|cbn; intuition|cbn; intros j [<-|[<-|[]]]; intuition congruence]|cbv beta; intros u8 c8 (H8 & L8 & B8)].
  eapply pwp_use; [solve [pure_tac]|eapply (L_insert _ (b3 :: b2 :: P)); [eassumption|cbn; auto|cbn; intuition congruence|intros x; cbn; intuition]|cbv beta; intros u9 c9 (H9 & E9 & L9 & B9)].
  assert (NL9 : ~ islab c9 (c_builder c9)).
  { unfold islab. rewrite L9, B9. intros X. apply (PH_lab _ _ _ _ _ H8 b1 X). cbn; auto. }
  pks HB. intros [w l] c10 (H10 & L10 & N10).
  pks pk_rval. intros w' c11 (H11 & L11 & N11). specialize (N11 (N10 NL9)). clear N10.
  apply pwp_bind; [solve [pure_tac]|]. apply pwp_GetInsertBlock. set (e1 := c_builder c11).
  assert (P11 : ~ In e1 (b3 :: b2 :: P)) by (intros X; destruct (PH_P _ _ _ _ _ H11 e1 X) as (_ & X5 & _); auto).
  assert (LT11 : (e1 < List.length (c_blocks c11))%nat) by apply H11.
  apply pwp_bind; [solve [pure_tac]|]. apply pwp_setTerm. 
  match goal with |- pwp _ _ ?c' => set (c13 := c') end.
  assert (H13 : PH (b3 :: b2 :: P) (b2 :: b1 :: J) ((b3, [e1]) :: K) Z c13).
  { replace ((b3, [e1]) :: K) with (addsrc e1 (successors (TBr b3)) ((b3, []) :: K)).
    - eapply PH_term; eauto; try reflexivity. cbn. intros j [<-|[]]. auto.
    - cbn [addsrc map successors fst snd existsb]. rewrite Nat.eqb_refl. cbn. f_equal. apply (addsrc_none e1 [b3]). cbn. intros j [<-|[]]; auto. }
  assert (D13 : ends c13 e1 (TBr b3)) by (apply (ends_term c11 c13 (TBr b3)); auto).
  assert (LL13 : c_labels c13 = c_labels c11) by reflexivity.
  assert (LE13 : List.length (c_blocks c13) = List.length (c_blocks c11)) by apply upd_length.
  clearbody c13.
  eapply pwp_use; [solve [pure_tac]|eapply (L_insert _ (b3 :: P)); [eassumption|cbn; auto|cbn; intuition congruence|intros x; cbn; intuition]|cbv beta; intros u14 c14 (H14 & E14 & L14 & B14)].
  assert (NL14 : ~ islab c14 (c_builder c14)).
  { unfold islab. rewrite L14, B14. intros X. apply (PH_lab _ _ _ _ _ H13 b2 X). cbn; auto. }
  apply (PH_addZ _ _ _ _ _ e1 b3) in H14.
  2: { unfold ends in *. rewrite E14. auto. }
  2: { unfold frozen, islab in *. rewrite B14, L14, LL13, E14, LE13. cbn in P11 |- *. intuition congruence. }
  pks HD. intros [x l'] c15 (H15 & L15 & N15).
  pks pk_rval. intros w'' c16 (H16 & L16 & N16). specialize (N16 (N15 NL14)). clear N15.
  apply pwp_bind; [solve [pure_tac]|]. apply pwp_GetInsertBlock. set (e2 := c_builder c16).
  assert (P16 : ~ In e2 (b3 :: P)) by (intros X; destruct (PH_P _ _ _ _ _ H16 e2 X) as (_ & X5 & _); auto).
  assert (LT16 : (e2 < List.length (c_blocks c16))%nat) by apply H16.
  assert (NE : e1 <> e2) by (destruct (PH_Z _ _ _ _ _ H16 e1 b3) as (_ & X & _); [left; auto|exact X]).
  apply pwp_bind; [solve [pure_tac]|]. apply pwp_setTerm. 
  match goal with |- pwp _ _ ?c' => set (c18 := c') end.
  assert (H18 : PH (b3 :: P) (b2 :: b1 :: J) ((b3, [e2; e1]) :: K) ((e1, b3) :: Z) c18).
  { replace ((b3, [e2; e1]) :: K) with (addsrc e2 (successors (TBr b3)) ((b3, [e1]) :: K)).
    - eapply PH_term; eauto; try reflexivity. cbn. intros j [<-|[]]. auto.
    - cbn [addsrc map successors fst snd existsb]. rewrite Nat.eqb_refl. cbn. f_equal. apply (addsrc_none e2 [b3]). cbn. intros j [<-|[]]; auto. }
  assert (D18 : ends c18 e2 (TBr b3)) by (apply (ends_term c16 c18 (TBr b3)); auto).
  assert (LL18 : c_labels c18 = c_labels c16) by reflexivity.
  assert (LE18 : List.length (c_blocks c18) = List.length (c_blocks c16)) by apply upd_length.
  clearbody c18.
  destruct (PH_P _ _ _ _ _ H18 b3 (or_introl eq_refl)) as (_ & _ & n3 & E3).
  eapply pwp_use; [solve [pure_tac]|eapply (L_insert _ P); [eassumption|cbn; auto|cbn; intuition congruence|intros y; cbn; intuition]|cbv beta; intros u19 c19 (H19 & E19 & L19 & B19)].
  assert (NL19 : ~ islab c19 (c_builder c19)).
  { unfold islab. rewrite L19, B19. intros X. apply (PH_lab _ _ _ _ _ H18 b3 X). cbn; auto. }
  apply (PH_addZ _ _ _ _ _ e2 b3) in H19.
  2: { unfold ends in *. rewrite E19. auto. }
  2: { unfold frozen, islab in *. rewrite B19, L19, LL18, E19, LE18. cbn in P16 |- *. intuition congruence. }
  apply pwp_bind; [solve [pure_tac]|]. apply pwp_emitR. apply pwp_ret.
  split; [|split].
  - eapply (PH_dropJ _ (b2 :: b1 :: J)); [intros y; cbn; auto|].
    eapply (PH_phi_inst _ _ _ _ c19 _ _ _ e1 _ e2 (mkBlock n3 [] None)); try reflexivity; auto; rewrite ?B19, ?E19; auto.
  - cbn. congruence.
  - intros _. exact NL19.
Qed.
Lemma pk_gen_all chk : (forall e q, pk (gen chk q e)) /\ (forall l, pk (genArgs chk l)).
Proof.
  apply expr_exprs_ind; intros; ugen; try solve [pk_tac].
  apply pk_bind; [pure_tac|auto|intros [w l]]. apply pk_bind; [pure_tac|auto with pk|intros v]. apply pk_cond; auto.
Qed.
Lemma pk_gen chk q e : pk (gen chk q e). Proof. apply pk_gen_all. Qed.
#[export] Hint Resolve pk_gen : pk.
Lemma pk_genR chk q e : pk (genR chk q e). Proof. unfold genR. pk_tac. Qed.
#[export] Hint Resolve pk_genR : pk.

(** ** Statements *)
(** Blocks branched to: statements and labels. *)
Definition ps (P J : list nat) (c' : cstate) : Prop := PH P J [] [] c'.
Definition jump (J : list nat) (c : cstate) (b : nat) : Prop := In b J \/ islab c b.
Lemma S_term P J t c : ps P J c -> Forall (jump J c) (successors t) ->
  pwp (setTerm t) (fun _ c' => ps P J c' /\ c_labels c' = c_labels c) c.
Proof.
  intros H HJ. rewrite Forall_forall in HJ. eapply pwp_mono; [apply L_setTerm; [exact H|exact HJ|auto]|]. cbv beta. tauto.
Qed.
Lemma S_brIfOpen P J b c : ps P J c -> jump J c b -> pwp (brIfOpen b) (fun _ c' => ps P J c' /\ c_labels c' = c_labels c) c.
Proof.
  intros H HJ. unfold brIfOpen. apply pwp_bind; [auto with pure|]. apply pwp_termIsNil. intros [] _ _; cbv iota.
  - apply S_term; auto. cbn. auto.
  - apply pwp_ret. auto.
Qed.
Lemma S_NewBlock P J n c : ps P J c -> pwp (NewBlock n) (fun b c' => (ps (b :: P) (b :: J) c' /\ c_labels c' = c_labels c) /\ ~ In b P) c.
Proof.
  intros H. eapply pwp_mono; [apply L_NewBlock; exact H|]. cbv beta. intros b c' (H' & (N1 & N2 & _) & _ & L & _). split; auto. split; auto.
  destruct (PH_P _ _ _ _ _ H' b (or_introl eq_refl)) as (B1 & _ & m & B3).
  apply PH_addJ; auto; [split; auto; eapply nth_lt; eauto|]. intros bl Hb. rewrite B3 in Hb. injection Hb as <-. constructor.
Qed.
Lemma S_insert P P' J b c : ps P J c -> In b P -> ~ In b P' -> incl P' P ->
  pwp (SetInsertPoint b) (fun _ c' => ps P' J c' /\ c_labels c' = c_labels c) c.
Proof. intros H HB NB HI. eapply pwp_mono; [eapply L_insert; eauto|]. cbv beta. tauto. Qed.
Lemma S_label P J n c : ps P J c -> pwp (GetOrCreateLabel n) (fun b c' => ps P J c' /\ islab c' b /\ incl (c_labels c) (c_labels c')) c.
Proof.
  intros H. unfold GetOrCreateLabel. apply pwp_bind; [auto with pure|]. apply pwp_get.
  destruct (assoc n (c_labels c)) as [b|] eqn:E.
  - apply pwp_ret. split; auto. split; [|apply incl_refl]. apply assoc_In in E. unfold islab. apply in_map_iff. exists (n, b). auto.
  - eapply pwp_use; [auto with pure|apply L_NewBlock; exact H|]. cbv beta. intros b c' (H' & (N1 & N2 & N3) & _ & L & _).
    apply pwp_bind; [auto with pure|]. apply pwp_modify. apply pwp_ret. split; [|split].
    + apply (PH_label P J [] [] c' _ b n); auto.
    + left. reflexivity.
    + cbn. rewrite L. apply incl_tl, incl_refl.
Qed.
Lemma S_visit P J b c : ps P J c -> islab c b -> pwp (SetInsertPoint b) (fun _ c' => ps P J c' /\ c_labels c' = c_labels c) c.
Proof. intros H HB. apply pwp_SetInsertPoint. split; auto. apply (PH_visit P J [] [] c _ b); auto. Qed.
Lemma S_cases P J id l : forall c, ps P J c -> pwp (switchCases id l) (fun bs c' => ps P J c' /\ Forall (islab c') (map snd bs) /\ incl (c_labels c) (c_labels c')) c.
Proof.
  induction l as [|z l IH]; intros c H; cbn [switchCases].
  - apply pwp_ret. split; auto. split; [constructor|apply incl_refl].
  - eapply pwp_use; [pure_tac|apply S_label; exact H|cbv beta; intros b c1 (H1 & B1 & I1)].
    eapply pwp_use; [pure_tac|apply IH; exact H1|cbv beta; intros bs c2 (H2 & B2 & I2)].
    apply pwp_ret. split; auto. split; [|eapply incl_tran; eauto]. cbn. constructor; auto.
    unfold islab in *. apply in_map_iff in B1. destruct B1 as (x & <- & B1). apply in_map. auto.
Qed.

Ltac pkS L x := eapply pwp_use; [solve [pure_tac]|apply L; eassumption|cbv beta; intros x ? (? & ? & _)].
Ltac newS b N := eapply pwp_use; [solve [pure_tac]|apply S_NewBlock; eassumption|cbv beta; intros b ? ((? & ?) & N)].
Ltac jm := first [left; cbn; auto; fail | right; assumption].
Ltac termS := eapply pwp_use; [solve [pure_tac]|first [eapply S_brIfOpen; [eassumption|jm] | eapply S_term; [eassumption|cbn [successors]; repeat (first [apply Forall_nil|apply Forall_cons; [jm|]])]]|cbv beta; intros ? ? [? ?]].
Ltac insS PP := eapply pwp_use; [solve [pure_tac]|eapply (S_insert _ PP); [eassumption|cbn; auto|cbn in *; intuition congruence|intros x; cbn; intuition]|cbv beta; intros ? ? [? ?]].
Ltac bodyS IH := eapply pwp_use; [solve [pure_tac]|eapply IH; eassumption|cbv beta; intros ? ? ?].
Ltac out := eapply PH_dropJ; [|eassumption]; intros x; cbn; auto.
Lemma S_genS_all chk :
  (forall s sw P J c, ps P J c -> pwp (genS chk s sw) (fun _ c' => ps P J c') c) /\
  (forall l sw P J c, ps P J c -> pwp (genL chk l sw) (fun _ c' => ps P J c') c).
Proof.
  apply stmt_stmts_ind; intros; ugenS.
  - apply pwp_ret. auto.
  - pkS pk_genR v. apply pwp_ret. auto.
  - apply H; auto.
  - destruct e as [e|].
    + pkS pk_genR v. termS. apply pwp_ret. auto.
    + termS. apply pwp_ret. auto.
  - pkS pk_checkAutos u. pkS pk_declareAutos u'. apply pwp_ret. auto.
  - pkS pk_genExtrn u. apply pwp_ret. auto.
  - pkS pk_genR v. pkS pk_nextLabelID lid. newS b1 N1. newS b2 N2. newS b3 N3.
    eapply pwp_use; [solve [pure_tac]|apply pk_emitR; [reflexivity|eassumption]|cbv beta; intros cmp ? (? & ? & _)].
    termS. insS (b3 :: b2 :: P). bodyS H. termS. insS (b3 :: P). termS. insS P. apply pwp_ret. out.
  - pkS pk_genR v. pkS pk_nextLabelID lid. newS b1 N1. newS b2 N2. newS b3 N3.
    eapply pwp_use; [solve [pure_tac]|apply pk_emitR; [reflexivity|eassumption]|cbv beta; intros cmp ? (? & ? & _)].
    termS. insS (b3 :: b2 :: P). bodyS H. termS. insS (b3 :: P). bodyS H0. termS. insS P. apply pwp_ret. out.
  - pkS pk_nextLabelID lid. newS b1 N1. newS b2 N2. newS b3 N3. termS. insS (b3 :: b2 :: P).
    pkS pk_genR v. eapply pwp_use; [solve [pure_tac]|apply pk_emitR; [reflexivity|eassumption]|cbv beta; intros cmp ? (? & ? & _)].
    termS. insS (b3 :: P). bodyS H. termS. insS P. apply pwp_ret. out.
  - pkS pk_nextLabelID lid. pkS pk_genR v. newS b1 N1. newS b2 N2. newS b3 N3. termS. insS (b3 :: b2 :: P).
    bodyS H. termS. insS (b3 :: P).
    match goal with |- pwp (bind ?m _) _ ?c => assert (K : pwp m (fun _ c' => ps (b3 :: P) (b3 :: b2 :: b1 :: J) c') c) end.
    { match goal with |- pwp (match ?x with _ => _ end) _ _ => destruct x as [[id' [|z vals]]|] end.
      - eapply pwp_mono; [eapply S_term; [eassumption|repeat constructor; left; cbn; auto]|]. cbv beta. tauto.
      - eapply pwp_use; [pure_tac|apply S_cases; eassumption|cbv beta; intros bs cz (Hz & Bz & _)].
        eapply pwp_mono; [eapply S_term; [eassumption|]|cbv beta; tauto]. cbn [successors]. constructor; [left; cbn; auto|].
        eapply Forall_impl; [|exact Bz]. intros. right. auto.
      - eapply pwp_mono; [eapply S_term; [eassumption|repeat constructor; left; cbn; auto]|]. cbv beta. tauto. }
    eapply pwp_use; [pure_tac|exact K|cbv beta; intros]. insS P. apply pwp_ret. out.
  - destruct sw as [[id vals]|]; [|apply pwp_err].
    eapply pwp_use; [pure_tac|apply S_label; eassumption|cbv beta; intros b c1 (H1 & B1 & _)].
    eapply pwp_use; [pure_tac|apply S_brIfOpen; [eassumption|right; assumption]|cbv beta; intros u c2 (H2 & L2)].
    eapply pwp_use; [pure_tac|apply S_visit; [eassumption|unfold islab in *; rewrite L2; assumption]|cbv beta; intros u2 c3 (H3 & L3)].
    apply H; auto.
  - eapply pwp_use; [pure_tac|apply S_label; eassumption|cbv beta; intros b c1 (H1 & B1 & _)].
    termS. pkS pk_nextLabelID lid. newS b1 N1. insS P. apply pwp_ret. out.
  - eapply pwp_use; [pure_tac|apply S_label; eassumption|cbv beta; intros b c1 (H1 & B1 & _)].
    eapply pwp_use; [pure_tac|apply S_brIfOpen; [eassumption|right; assumption]|cbv beta; intros u c2 (H2 & L2)].
    eapply pwp_use; [pure_tac|apply S_visit; [eassumption|unfold islab in *; rewrite L2; assumption]|cbv beta; intros u2 c3 (H3 & L3)].
    apply H; auto.
  - apply pwp_ret. auto.
  - eapply pwp_use; [pure_tac|apply H; eassumption|cbv beta; intros sw1 c1 HX]. apply H0; auto.
Qed.

(** ** Functions *)
Lemma pk_getOrCreateFunc n : pk (getOrCreateFunc n).
Proof. apply pk_modify. intros c. destruct (find_named _ _ _); repeat split. Qed.
Lemma pk_va_params va l : pk (va_params va l).
Proof. induction l; cbn [va_params]; pk_tac. Qed.
#[export] Hint Resolve pk_getOrCreateFunc pk_va_params : pk.
Lemma PH_start c : c_blocks c = [mkBlock "entry" [] None] -> c_labels c = [] -> c_builder c = 0%nat -> ps [] [] c.
Proof.
  intros E1 E2 E3. constructor; unfold edge, ends, islab; rewrite ?E1, ?E2, ?E3; cbn; auto; try contradiction.
  - intros i j (t & (b & H1 & H2) & _). destruct i as [|[|i]]; cbn in H1; try discriminate. injection H1 as <-. discriminate.
  - intros [|[|i]] b H; cbn in H; try discriminate. injection H as <-. left. constructor.
Qed.
Lemma S_start name params c : pwp (start_of name params) (fun _ c1 => ps [] [] c1) c.
Proof.
  unfold start_of, DeclareFunction. apply pwp_bind; [pure_tac|]. apply pwp_bind; [auto with pure|]. apply pwp_modify. apply pwp_ret.
  unfold StartFunction. apply pwp_bind; [auto with pure|]. apply pwp_modify. apply pwp_bind; [auto with pure|]. apply pwp_get.
  cbv zeta. match goal with |- pwp ?m _ ?c' => set (c1 := c'); assert (K : pk m) by pk_tac; assert (N : ps [] [] c1) by (apply PH_start; reflexivity) end.
  eapply pwp_mono; [apply K; exact N|]. cbv beta. intros u c2 (H & _). auto.
Qed.

Lemma edges_from_in i j b x : In x (edges_from i (j, b)) <-> x = j /\ exists t, b_term b = Some t /\ In i (successors t).
Proof.
  unfold edges_from, block_terms. cbn [fst snd]. destruct (b_term b) as [t|]; cbn; rewrite ?app_nil_r.
  - rewrite in_map_iff. split.
    + intros (y & <- & H). apply filter_In in H. destruct H as [H E]. apply Nat.eqb_eq in E. subst y. eauto.
    + intros (-> & t' & E & H). injection E as <-. exists i. split; auto. apply filter_In. split; auto. apply Nat.eqb_refl.
  - split; [intros []|]. intros (_ & t & E & _). discriminate.
Qed.
Lemma nth_combine_seq {A} (l : list A) j b n : In (j, b) (combine (seq n (List.length l)) l) <-> (n <= j)%nat /\ nth_error l (j - n) = Some b.
Proof.
  revert n. induction l as [|a l IH]; intros n; cbn.
  - split; [intros []|]. intros [_ H]. destruct (j - n)%nat; discriminate.
  - rewrite IH. split.
    + intros [E|[H1 H2]].
      * injection E as <- <-. split; auto. rewrite Nat.sub_diag. auto.
      * split; [lia|]. replace (j - n)%nat with (S (j - S n)) by lia. auto.
    + intros [H1 H2]. destruct (Nat.eq_dec j n) as [->|N].
      * left. rewrite Nat.sub_diag in H2. cbn in H2. congruence.
      * right. split; [lia|]. replace (j - n)%nat with (S (j - S n)) in H2 by lia. auto.
Qed.
Lemma predecessors_in bs i x : In x (predecessors bs i) <-> exists b t, nth_error bs x = Some b /\ b_term b = Some t /\ In i (successors t).
Proof.
  unfold predecessors. rewrite in_flat_map. split.
  - intros ([j b] & H1 & H2). apply edges_from_in in H2. destruct H2 as (-> & t & H2 & H3).
    apply nth_combine_seq in H1. rewrite Nat.sub_0_r in H1. exists b, t. tauto.
  - intros (b & t & H1 & H2 & H3). exists (x, b). split; [apply nth_combine_seq; rewrite Nat.sub_0_r; split; [lia|auto]|].
    apply edges_from_in. eauto.
Qed.
(** One entry for each predecessor that branches unconditionally. *)
Lemma predecessors_nodup bs i : (forall x b t, nth_error bs x = Some b -> b_term b = Some t -> In i (successors t) -> t = TBr i) -> NoDup (predecessors bs i).
Proof.
  intros H. unfold predecessors.
  assert (H' : forall x b, In (x, b) (combine (seq 0 (List.length bs)) bs) -> forall t, b_term b = Some t -> In i (successors t) -> t = TBr i).
  { intros x b HI. apply nth_combine_seq in HI. rewrite Nat.sub_0_r in HI. destruct HI as [_ HI]. eauto. }
  clear H. revert H'. generalize (seq_NoDup (List.length bs) 0). generalize (seq 0 (List.length bs)). 
  induction bs as [|b bs IH]; intros l HN H; [destruct l; constructor|]. destruct l as [|n l]; [constructor|]. cbn [combine flat_map] in *.
  inversion HN; subst.
  assert (R : NoDup (flat_map (edges_from i) (combine l bs))) by (apply IH; auto; intros; eapply H; eauto; right; eauto).
  assert (D : ~ In n (flat_map (edges_from i) (combine l bs))).
  { intros X. apply in_flat_map in X. destruct X as ([j b'] & X1 & X2). apply edges_from_in in X2. destruct X2 as [-> _].
    apply in_combine_l in X1. auto. }
  unfold edges_from at 1, block_terms. cbn [fst snd]. destruct (b_term b) as [t|] eqn:E; cbn; auto. rewrite app_nil_r.
  destruct (in_dec Nat.eq_dec i (successors t)) as [HI|HI].
  - rewrite (H n b (or_introl eq_refl) t E HI). cbn. rewrite Nat.eqb_refl. cbn. constructor; auto.
  - replace (filter (Nat.eqb i) (successors t)) with (@nil nat); auto. symmetry. clear -HI. induction (successors t) as [|x l IH]; cbn; auto.
    destruct (Nat.eqb_spec i x) as [->|]; [destruct HI; left; auto|]. apply IH. intros X. apply HI. right. auto.
Qed.
Lemma PH_final c : ps [] [] c -> phis_ok (c_blocks c) /\ entry_ok (c_blocks c).
Proof.
  intros []. split.
  - intros k b Hb. destruct (PH_phi0 k b Hb) as [N|(r & v1 & e1 & v2 & e2 & rest & Q1 & Q2 & Q3 & Q4 & Q5 & Q6 & Q7 & Q8 & Q9 & Q10 & Q11)].
    + split; [exists [], (b_insts b); auto|]. intros r inc H. unfold nophi in N. rewrite Forall_forall in N. specialize (N _ H). discriminate.
    + split.
      * exists [IPhi r [(v1, e1); (v2, e2)]], rest. rewrite Q1. repeat apply conj; auto.
      * rewrite Q1. intros r' inc [E|H]; [|rewrite Forall_forall in Q2; specialize (Q2 _ H); discriminate]. injection E as <- <-. cbn [map snd].
        apply NoDup_Permutation.
        { constructor; [cbn; intuition|]. constructor; [intros []|constructor]. }
        { apply predecessors_nodup. intros x b0 t H1 H2 H3.
          assert (X : edge c x k) by (exists t; split; auto; exists b0; auto).
          destruct (Q6 x X) as [-> | ->]; [destruct Q4 as (b' & R1 & R2)|destruct Q5 as (b' & R1 & R2)]; congruence. }
        { intros x. rewrite predecessors_in. split.
          - intros [<-|[<-|[]]]; [destruct Q4 as (b' & R1 & R2)|destruct Q5 as (b' & R1 & R2)]; exists b', (TBr k); cbn; auto.
          - intros (b0 & t & H1 & H2 & H3). assert (X : edge c x k) by (exists t; split; auto; exists b0; auto).
            destruct (Q6 x X) as [-> | ->]; cbn; auto. }
  - unfold entry_ok. destruct (predecessors (c_blocks c) 0) as [|x l] eqn:E; auto. exfalso.
    assert (X : In x (predecessors (c_blocks c) 0)) by (rewrite E; left; auto). apply predecessors_in in X.
    destruct X as (b & t & H1 & H2 & H3). assert (X : edge c x 0) by (exists t; split; auto; exists b; auto).
    apply PH_edges0 in X. lia.
Qed.
Theorem compiled_phis chk c name params body c1 c2 : compiled chk c name params body c1 c2 -> phis_ok (finished c2) /\ entry_ok (finished c2).
Proof.
  intros (HD & YS & sw & YB). pose proof (S_start name params c _ _ YS) as H1. cbv beta in H1.
  pose proof (proj1 (S_genS_all chk) body None _ _ c1 H1 _ _ YB) as H2. cbv beta in H2.
  unfold finished. destruct (nth_error _ _) as [b|]; [|apply PH_final; auto]. destruct (b_term b); [apply PH_final; auto|].
  assert (Q : pwp (setTerm (TRet (VInt 0))) (fun _ c' => ps [] [] c') c2).
  { eapply pwp_mono; [eapply S_term; [exact H2|constructor]|]. cbv beta. tauto. }
  apply (PH_final (set_blocks (upd (c_builder c2) (put_term (TRet (VInt 0))) (c_blocks c2)) c2)).
  apply (Q tt). intros l. reflexivity.
Qed.
