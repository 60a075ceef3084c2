(** * LdFacts: what the linker of Ld.v does *)
From Coq Require Import List String Bool Permutation Lia Arith.
From Verif Require Import Base Ld SpecLd.
Import ListNotations.
Open Scope string_scope.
Open Scope list_scope.

Lemma isIn_iff x l : isIn x l = true <-> In x l.
Proof.
  unfold isIn. rewrite existsb_exists. split.
  - intros (y & H & E). apply String.eqb_eq in E. subst. auto.
  - intros H. exists x. rewrite String.eqb_refl. auto.
Qed.
Lemma isIn_false x l : isIn x l = false <-> ~ In x l.
Proof. rewrite <- isIn_iff. destruct (isIn x l); intuition congruence. Qed.
Lemma wanted_iff os x : wanted os x = true <-> In x (refs_of os) /\ ~ In x (defs_of os).
Proof. unfold wanted. rewrite andb_true_iff, negb_true_iff, isIn_iff, isIn_false. tauto. Qed.
Lemma in_defs os x : In x (defs_of os) <-> exists o, In o os /\ In x (o_defs o).
Proof. unfold defs_of. rewrite in_flat_map. firstorder. Qed.
Lemma in_refs os x : In x (refs_of os) <-> x = "_start" \/ exists o, In o os /\ In x (o_refs o).
Proof. unfold refs_of. cbn [In]. rewrite in_flat_map. firstorder; subst; auto. Qed.
Lemma defs_app a b : defs_of (a ++ b) = defs_of a ++ defs_of b.
Proof. apply flat_map_app. Qed.

Lemma pick_some os ar : forall o r, pick os ar = Some (o, r) -> Permutation ar (o :: r) /\ exists x, In x (o_defs o) /\ wanted os x = true.
Proof.
  induction ar as [|a ar IH]; cbn [pick]; intros o r H; [discriminate|]. destruct (existsb (wanted os) (o_defs a)) eqn:E.
  - injection H as <- <-. split; [apply Permutation_refl|]. apply existsb_exists in E. exact E.
  - destruct (pick os ar) as [[o' r']|] eqn:P; [|discriminate]. injection H as <- <-. destruct (IH _ _ eq_refl) as [I1 I2]. split; auto.
    eapply perm_trans; [apply perm_skip, I1|apply perm_swap].
Qed.
Lemma pick_none os ar : pick os ar = None -> forall o x, In o ar -> In x (o_defs o) -> wanted os x = false.
Proof.
  induction ar as [|a ar IH]; cbn [pick]; intros H o x HO HX; [contradiction|]. destruct (existsb (wanted os) (o_defs a)) eqn:E; [discriminate|].
  destruct (pick os ar) as [[]|] eqn:P; [discriminate|]. destruct HO as [<-|HO]; [|eauto].
  destruct (wanted os x) eqn:W; auto. assert (existsb (wanted os) (o_defs a) = true) by (apply existsb_exists; eauto). congruence.
Qed.

Section Extract.
Variable objs archive : list object.
Hypothesis once : NoDup (defs_of archive).
Local Notation need := (needed objs archive).

Definition good (os : list object) (ps rest : list object) : Prop :=
  os = objs ++ ps /\ Permutation archive (ps ++ rest) /\ forall p, In p ps -> exists x, In x (o_defs p) /\ need x.
Lemma good_refs os ps rest : good os ps rest -> forall x, In x (refs_of os) -> ~ In x (defs_of objs) -> need x.
Proof.
  intros (-> & P & N) x HR HD. apply in_refs in HR. destruct HR as [->|(o & HO & HX)]; [apply needed_start; auto|].
  apply in_app_or in HO. destruct HO as [HO|HO]; [eapply needed_here; eauto|].
  destruct (N _ HO) as (y & Y1 & Y2). eapply needed_by; eauto.
  eapply Permutation_in; [apply Permutation_sym; exact P|apply in_or_app; auto].
Qed.
Lemma extract_good n : forall os ps rest, good os ps rest -> (List.length rest <= n)%nat ->
  exists ps' rest', good (extract n os rest) ps' rest' /\ pick (extract n os rest) rest' = None.
Proof.
  induction n as [|n IH]; intros os ps rest Go Len; cbn [extract].
  - destruct rest; [|cbn in Len; lia]. exists ps, []. auto.
  - destruct (pick os rest) as [[o r]|] eqn:P; [|exists ps, rest; auto].
    destruct (pick_some _ _ _ _ P) as (P1 & x & X1 & X2). apply wanted_iff in X2. destruct X2 as [X2 X3].
    apply (IH (os ++ [o]) (ps ++ [o]) r).
    + pose proof (good_refs _ _ _ Go x X2) as K. destruct Go as (-> & G2 & G3). split; [rewrite app_assoc; auto|]. split.
      * rewrite <- app_assoc. cbn. eapply perm_trans; [exact G2|]. apply Permutation_app_head, P1.
      * intros p Hp. apply in_app_or in Hp. destruct Hp as [Hp|[<-|[]]]; auto. exists x. split; auto. apply K.
        intros F. apply X3. rewrite defs_app. apply in_or_app. auto.
    + apply Permutation_length in P1. cbn in P1. lia.
Qed.
Lemma one_member p m x : In p archive -> In m archive -> In x (o_defs p) -> In x (o_defs m) -> p = m.
Proof.
  revert once. induction archive as [|a l IH]; intros ND Hp Hm Xp Xm; [contradiction|]. unfold defs_of in ND. cbn [flat_map] in ND.
  assert (K : forall q, In q l -> In x (o_defs q) -> In x (o_defs a) -> False).
  { intros q Hq Xq Xa. apply in_split in Xa. destruct Xa as (l1 & l2 & E). rewrite E in ND. rewrite <- app_assoc in ND. cbn in ND.
    apply NoDup_remove_2 in ND. apply ND, in_or_app. right. apply in_or_app. right. apply in_flat_map. eauto. }
  destruct Hp as [->|Hp], Hm as [->|Hm]; auto.
  - exfalso. eauto.
  - exfalso. eauto.
  - apply IH; auto. clear - ND. induction (o_defs a); auto. inversion ND; auto.
Qed.
(** The members that are taken are those the program needs. *)
Lemma extract_taken : exists ps, extract (List.length archive) objs archive = objs ++ ps /\ (forall m, In m ps <-> taken objs archive m) /\
  NoDup (defs_of ps) /\
  (forall x, In x (refs_of (objs ++ ps)) <-> (In x (refs_of (objs ++ ps)) /\ In x (defs_of objs)) \/ need x).
Proof.
  assert (G0 : good objs [] archive) by (split; [rewrite app_nil_r; auto|split; [apply Permutation_refl|contradiction]]).
  destruct (extract_good _ _ _ _ G0 (Nat.le_refl _)) as (ps & rest & Go & PN).
  set (os := extract (List.length archive) objs archive) in *. clearbody os.
  pose proof Go as (E & P & N). exists ps. split; auto.
  assert (HIN : forall x, need x -> In x (refs_of os) /\ ~ In x (defs_of objs) /\ forall m, In m archive -> In x (o_defs m) -> In m ps).
  { assert (FIN : forall x, In x (refs_of os) -> ~ In x (defs_of objs) -> forall m, In m archive -> In x (o_defs m) -> In m ps).
    { intros x HR HD m Hm Xm. pose proof (Permutation_in _ P Hm) as Hm2. apply in_app_or in Hm2. destruct Hm2 as [|Hm2]; auto.
      pose proof (pick_none _ _ PN _ _ Hm2 Xm) as W. destruct (in_dec string_dec x (defs_of os)) as [HI|HI].
      - rewrite E, defs_app in HI. apply in_app_or in HI. destruct HI as [HI|HI]; [contradiction|]. apply in_defs in HI. destruct HI as (p & Hp & Xp).
        rewrite <- (one_member p m x); auto. eapply Permutation_in; [apply Permutation_sym; exact P|apply in_or_app; auto].
      - assert (wanted os x = true) by (apply wanted_iff; auto). congruence. }
    induction 1 as [H|o x HO HX HD|y m x NY IH Hm Ym HX HD].
    - assert (R : In "_start" (refs_of os)) by (apply in_refs; auto). split; auto. split; auto. apply FIN; auto.
    - assert (R : In x (refs_of os)) by (apply in_refs; right; exists o; split; auto; rewrite E; apply in_or_app; auto). split; auto. split; auto. apply FIN; auto.
    - destruct IH as (_ & _ & IH). specialize (IH _ Hm Ym).
      assert (R : In x (refs_of os)) by (apply in_refs; right; exists m; split; auto; rewrite E; apply in_or_app; auto). split; auto. split; auto. apply FIN; auto. }
  split; [|split].
  - intros m. split.
    + intros Hm. split; [eapply Permutation_in; [apply Permutation_sym; exact P|apply in_or_app; auto]|apply N; auto].
    + intros (Hm & x & X1 & X2). eapply HIN; eauto.
  - assert (Q : NoDup (defs_of (ps ++ rest))).
    { eapply Permutation_NoDup; [|exact once]. unfold defs_of. apply Permutation_flat_map. exact P. }
    rewrite defs_app in Q. clear - Q. induction (defs_of ps); [constructor|]. cbn in Q. inversion Q; subst. constructor; auto. intros F. apply H1, in_or_app. auto.
  - rewrite <- E. intros x. split.
    + intros HR. destruct (in_dec string_dec x (defs_of objs)); auto. right. eapply good_refs; eauto.
    + intros [[H _]|H]; auto. apply HIN, H.
Qed.
End Extract.

Lemma twice_none l : twice l = None <-> NoDup l.
Proof.
  induction l as [|x l IH]; cbn; [split; auto; constructor|]. destruct (isIn x l) eqn:E.
  - split; [discriminate|]. intros H. inversion H. apply isIn_iff in E. contradiction.
  - apply isIn_false in E. rewrite IH. split; [constructor; auto|inversion 1; auto].
Qed.
Lemma find_none os : find (wanted os) (refs_of os) = None <-> forall x, In x (refs_of os) -> In x (defs_of os).
Proof.
  split.
  - intros H x HR. pose proof (find_none _ _ H x HR) as W. destruct (in_dec string_dec x (defs_of os)); auto.
    assert (wanted os x = true) by (apply wanted_iff; auto). congruence.
  - intros H. destruct (find (wanted os) (refs_of os)) as [x|] eqn:E; auto. apply find_some in E. destruct E as [E1 E2].
    apply wanted_iff in E2. destruct E2. exfalso. auto.
Qed.
Lemma NoDup_app_iff {A} (a b : list A) : NoDup (a ++ b) <-> NoDup a /\ NoDup b /\ forall x, In x a -> ~ In x b.
Proof.
  induction a as [|x a IH]; cbn; [firstorder constructor|]. split.
  - inversion 1; subst. apply IH in H3. destruct H3 as (H3 & H4 & H5). split; [constructor; auto; intros F; apply H2, in_or_app; auto|].
    split; auto. intros y [<-|Hy]; auto. intros F. apply H2, in_or_app. auto.
  - intros (H1 & H2 & H3). inversion H1; subst. constructor; [|apply IH; auto]. intros F. apply in_app_or in F. destruct F; [contradiction|]. eapply H3; eauto.
Qed.
Lemma link_some objs archive os : NoDup (defs_of archive) -> link objs archive = Linked os ->
  sound os /\ exists ps, os = objs ++ ps /\ forall m, In m ps <-> taken objs archive m.
Proof.
  intros once H. unfold link in H. destruct (extract_taken objs archive once) as (ps & E & T & _). rewrite E in H. clear E.
  destruct (twice (defs_of (objs ++ ps))) eqn:D; [discriminate|]. destruct (find _ _) eqn:F; [discriminate|]. injection H as <-.
  apply twice_none in D. pose proof (proj1 (find_none _) F) as F'. split; [|eauto]. split; auto. split; [apply F'; apply in_refs; auto|].
  intros o x HO HX. apply F', in_refs. eauto.
Qed.
Lemma link_iff objs archive : NoDup (defs_of archive) ->
  ((exists os, link objs archive = Linked os) <->
   NoDup (defs_of objs) /\ (forall m x, taken objs archive m -> In x (o_defs m) -> ~ In x (defs_of objs)) /\
   (forall x, needed objs archive x -> In x (defs_of archive))).
Proof.
  intros once. unfold link. destruct (extract_taken objs archive once) as (ps & -> & T & ND & RI). split.
  - intros (os & H). destruct (twice (defs_of (objs ++ ps))) eqn:D; [discriminate|]. destruct (find _ _) eqn:F; [discriminate|]. clear H.
    apply twice_none in D. rewrite defs_app in D. apply NoDup_app_iff in D. destruct D as (D1 & D2 & D3). pose proof (proj1 (find_none _) F) as F'.
    split; auto. split.
    + intros m x Tm Xm Xd. apply (D3 x Xd). apply in_defs. exists m. split; auto. apply T. auto.
    + intros x NX. assert (HR : In x (refs_of (objs ++ ps))) by (apply RI; auto). apply F' in HR. rewrite defs_app in HR. apply in_app_or in HR.
      assert (ND' : ~ In x (defs_of objs)) by (destruct NX; auto).
      destruct HR as [HR|HR]; [contradiction|]. apply in_defs in HR. destruct HR as (p & Hp & Xp). apply T in Hp. apply in_defs. exists p. split; [apply Hp|auto].
  - intros (H1 & H2 & H3).
    assert (D : NoDup (defs_of (objs ++ ps))).
    { rewrite defs_app. apply NoDup_app_iff. split; auto. split; auto. intros x X1 X2. apply in_defs in X2. destruct X2 as (p & Hp & Xp). apply T in Hp. eapply H2; eauto. }
    apply twice_none in D. rewrite D.
    assert (F : forall x, In x (refs_of (objs ++ ps)) -> In x (defs_of (objs ++ ps))).
    { intros x HR. rewrite defs_app. apply RI in HR. apply in_or_app. destruct HR as [[_ HR]|HR]; auto. right.
      pose proof (H3 x HR) as K. apply in_defs in K. destruct K as (m & Hm & Xm). apply in_defs. exists m. split; auto. apply T. split; eauto. }
    apply find_none in F. rewrite F. eauto.
Qed.

(** ** The library *)
Lemma libb_once : NoDup (defs_of libb).
Proof. apply twice_none. vm_compute. reflexivity. Qed.
Section Library.
Variable objs : list object.
Local Notation D := (defs_of objs).
Local Notation R := (flat_map o_refs objs).
Local Notation need := (needed objs libb).
Lemma needed_new x : need x -> ~ In x D. Proof. destruct 1; auto. Qed.
Lemma needed_R x : In x R -> ~ In x D -> need x.
Proof. intros H K. apply in_flat_map in H. destruct H as (o & H1 & H2). eapply needed_here; eauto. Qed.
Ltac members H := unfold libb in H; cbn [In] in H; repeat (destruct H as [H|H]; [subst; cbn [o_defs o_refs In] in *|]); [..|contradiction].
(** A symbol that no member refers to. *)
Lemma needed_direct x : need x -> isIn x ("_start" :: flat_map o_refs libb) = false -> In x R.
Proof.
  intros H N. destruct H as [H|o x HO HX HD|y m x NY Hm Ym HX HD].
  - discriminate.
  - apply in_flat_map. eauto.
  - exfalso. apply isIn_false in N. apply N. right. apply in_flat_map. eauto.
Qed.
Lemma needed_printing f : In f ["b.write"; "b.printd"; "b.printo"] -> need f -> In f R \/ need "b.printf".
Proof.
  intros HF H. destruct H as [H|o x HO HX HD|y m x NY Hm Ym HX HD].
  - exfalso. cbn in HF. intuition discriminate.
  - left. apply in_flat_map. eauto.
  - right. cbn [In] in HF. members Hm; intuition (subst; try discriminate; auto).
Qed.
Lemma needed_fout : In "b.writeb" D -> need "b.fout" -> prints D R.
Proof.
  intros W H. remember "b.fout" as x eqn:E. induction H as [H|o x HO HX HD|y m x NY IH Hm Ym HX HD]; subst.
  - discriminate.
  - left. apply in_flat_map. eauto.
  - assert (K : forall f, In f ["b.write"; "b.printd"; "b.printo"] -> need f -> prints D R).
    { intros f HF NF. right. exists f. split; auto. split; [apply needed_new; auto|]. destruct (needed_printing f HF NF) as [|NP]; auto. right.
      split; [apply needed_direct; auto|apply needed_new; auto]. }
    members Hm; try (exfalso; intuition discriminate).
    + destruct Ym as [<-|[]]. apply (K "b.printd"); cbn; auto.
    + destruct Ym as [<-|[]]. apply (K "b.printo"); cbn; auto.
    + destruct Ym as [<-|[]]. apply (K "b.write"); cbn; auto.
    + destruct Ym as [<-|[<-|[]]]; auto. apply needed_new in NY. contradiction.
Qed.
Lemma libb_links : ~ In "_start" D -> ((exists os, link objs libb = Linked os) <-> linkable D R).
Proof.
  intros NS. rewrite (link_iff objs libb libb_once). assert (S : need "_start") by (apply needed_start; auto).
  assert (IM : forall m, In m libb -> forall x, In x (o_refs m) -> x = "main" \/ In x (defs_of libb)).
  { intros m Hm x Hx. members Hm; repeat (destruct Hx as [<-|Hx]; [auto; right; apply isIn_iff; reflexivity|]); contradiction. }
  assert (MW : In (mkObject ["b.fout"; "b.writeb"] ["b.fout"]) libb) by (unfold libb; cbn; auto 20).
  split.
  - intros (H1 & H2 & H3). split; auto. split.
    { destruct (in_dec string_dec "main" D) as [|N]; auto. exfalso.
      assert (NM : need "main") by (eapply (needed_by _ _ "_start" (mkObject ["_start"] ["main"])); auto; [unfold libb; cbn; auto 20|cbn; auto..]).
      apply H3 in NM. apply isIn_iff in NM. discriminate. }
    split.
    { intros x HX. destruct (in_dec string_dec x D); auto. right. apply H3. apply needed_R; auto. }
    split.
    + intros (F & NW & W). apply (H2 (mkObject ["b.fout"; "b.writeb"] ["b.fout"]) "b.fout"); cbn [o_defs]; [|left; auto|auto].
      split; [exact MW|]. exists "b.writeb". split; [right; left; auto|]. apply needed_R; auto.
    + intros (W & NF & P). apply (H2 (mkObject ["b.fout"; "b.writeb"] ["b.fout"]) "b.writeb"); cbn [o_defs]; [|right; left; auto|auto].
      split; [exact MW|]. exists "b.fout". split; [left; auto|]. destruct P as [P|(f & HF & FD & FR)]; [apply needed_R; auto|].
      assert (NFn : need f).
      { destruct FR as [FR|[FR PD]]; [apply needed_R; auto|].
        eapply (needed_by _ _ "b.printf" (mkObject ["b.printf"] ["b.char"; "b.write"; "b.printd"; "b.printo"])); auto.
        - apply needed_R; auto.
        - unfold libb; cbn; auto 20.
        - left; auto.
        - cbn in *. intuition subst; auto. }
      cbn in HF. destruct HF as [<-|[<-|[<-|[]]]].
      * eapply (needed_by _ _ _ (mkObject ["b.write"] ["b.fout"]) _ NFn); auto; [unfold libb; cbn; auto 20|cbn; auto..].
      * eapply (needed_by _ _ _ (mkObject ["b.printd"] ["b.nwrite"; "b.fout"]) _ NFn); auto; [unfold libb; cbn; auto 20|cbn; auto..].
      * eapply (needed_by _ _ _ (mkObject ["b.printo"] ["b.nwrite"; "b.fout"]) _ NFn); auto; [unfold libb; cbn; auto 20|cbn; auto..].
  - intros (H1 & H2 & H3 & H4 & H5). split; auto. split.
    + intros m x (Hm & y & Y1 & Y2) X1 X2. pose proof (needed_new _ Y2) as ND.
      assert (CX : In x (o_defs m) -> x = y -> False) by (intros _ ->; contradiction).
      members Hm; try (destruct Y1 as [<-|[]]; destruct X1 as [<-|[]]; contradiction).
      destruct Y1 as [<-|[<-|[]]]; destruct X1 as [<-|[<-|[]]]; try contradiction.
      * apply H5. auto using needed_fout.
      * apply H4. split; auto. split; auto. apply needed_direct; auto.
    + intros x HX. destruct HX as [H|o x HO HX HD|y m x NY Hm Ym HX HD].
      * apply isIn_iff. reflexivity.
      * destruct (H3 x) as [|]; auto; [apply in_flat_map; eauto|contradiction].
      * destruct (IM _ Hm _ HX) as [->|]; auto. contradiction.
Qed.
End Library.
