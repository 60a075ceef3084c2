(** * DriverFacts: lemmas about the driver *)
From Coq Require Import List Ascii String ZArith NArith Lia Bool.
From Coq Require Import DecimalString DecimalZ.
From Verif Require Import Base IR Decl PropsTotal Driver SpecDriver.
Import ListNotations.
Open Scope Z_scope.
Open Scope d_scope.

Lemma path_eqb_spec p q : reflect (p = q) (path_eqb p q).
Proof. unfold path_eqb. destruct (list_eq_dec ascii_dec p q); constructor; auto. Qed.
Lemma path_eqb_refl p : path_eqb p p = true.
Proof. destruct (path_eqb_spec p p); auto. Qed.

Lemma upd_same f p c : upd f p c p = c.
Proof. unfold upd. rewrite path_eqb_refl. reflexivity. Qed.
Lemma upd_other f p c q : q <> p -> upd f p c q = f q.
Proof. unfold upd. destruct (path_eqb_spec q p); [contradiction|auto]. Qed.

(** ** Path names *)
Lemma ext_loop_spec : forall e q acc, ~ In "/"%char e -> ~ In "."%char e ->
  ext_loop (rev e ++ "."%char :: q) acc = "."%char :: e ++ acc.
Proof.
  intros e. induction e as [|c e IH] using rev_ind; intros q acc H1 H2.
  - reflexivity.
  - rewrite rev_app_distr. cbn [rev app ext_loop].
    rewrite in_app_iff in H1, H2. cbn in H1, H2.
    destruct (Ascii.eqb_spec c "/"); [subst; tauto|]. destruct (Ascii.eqb_spec c "."); [subst; tauto|].
    rewrite IH by tauto. rewrite <- app_assoc. reflexivity.
Qed.

Lemma Ext_spec q e : ~ In "/"%char e -> ~ In "."%char e -> Ext (q ++ "."%char :: e) = "."%char :: e.
Proof.
  intros H1 H2. unfold Ext. rewrite rev_app_distr. cbn [rev]. rewrite <- app_assoc.
  cbn [app]. rewrite ext_loop_spec by auto. rewrite app_nil_r. reflexivity.
Qed.

Lemma ext_loop_inv : forall rp acc x, ext_loop rp acc = x -> x <> [] ->
  exists e q, rp = rev e ++ "."%char :: q /\ x = "."%char :: e ++ acc /\ ~ In "/"%char e /\ ~ In "."%char e.
Proof.
  induction rp as [|c rp IH]; intros acc x E N; cbn [ext_loop] in E.
  - congruence.
  - destruct (Ascii.eqb_spec c "/"); [congruence|]. destruct (Ascii.eqb_spec c ".").
    + subst. exists [], rp. auto.
    + destruct (IH _ _ E N) as (e & q & -> & -> & H1 & H2). exists (e ++ [c]), q.
      rewrite rev_app_distr. cbn. rewrite <- app_assoc. repeat split; auto;
        rewrite in_app_iff; cbn; intuition congruence.
Qed.

Lemma Ext_inv p x : Ext p = x -> x <> [] ->
  exists q e, p = q ++ "."%char :: e /\ x = "."%char :: e /\ ~ In "/"%char e /\ ~ In "."%char e.
Proof.
  intros E N. destruct (ext_loop_inv _ _ _ E N) as (e & q & E1 & -> & H1 & H2).
  exists (rev q), e. rewrite app_nil_r. repeat split; auto.
  rewrite <- (rev_involutive p), E1, rev_app_distr, rev_involutive. cbn. rewrite <- app_assoc. reflexivity.
Qed.

Lemma HasSuffix_spec s suf : HasSuffix s suf = true <-> exists q, s = q ++ suf.
Proof.
  unfold HasSuffix. rewrite andb_true_iff, Nat.leb_le. split.
  - intros [HL HE]. destruct (path_eqb_spec (skipn (List.length s - List.length suf) s) suf); [|discriminate].
    exists (firstn (List.length s - List.length suf) s). transitivity (firstn (List.length s - List.length suf) s ++ skipn (List.length s - List.length suf) s); [symmetry; apply firstn_skipn|congruence].
  - intros [q ->]. rewrite app_length. split; [lia|].
    replace (List.length q + List.length suf - List.length suf)%nat with (List.length q) by lia.
    rewrite skipn_app, skipn_all, Nat.sub_diag. cbn. apply path_eqb_refl.
Qed.

Lemma TrimSuffix_app q suf : TrimSuffix (q ++ suf) suf = q.
Proof.
  unfold TrimSuffix. assert (H : HasSuffix (q ++ suf) suf = true) by (apply HasSuffix_spec; eauto).
  rewrite H, app_length. replace (List.length q + List.length suf - List.length suf)%nat with (List.length q) by lia.
  rewrite firstn_app, firstn_all, Nat.sub_diag. cbn. apply app_nil_r.
Qed.

Lemma HasSuffix_Ext p e : ~ In "/"%char e -> ~ In "."%char e ->
  HasSuffix p ("."%char :: e) = path_eqb (Ext p) ("."%char :: e).
Proof.
  intros H1 H2. destruct (path_eqb_spec (Ext p) ("."%char :: e)) as [E|N].
  - apply HasSuffix_spec. destruct (Ext_inv _ _ E ltac:(discriminate)) as (q & e' & -> & E' & _). injection E' as <-. eauto.
  - destruct (HasSuffix p ("."%char :: e)) eqn:HS; auto. apply HasSuffix_spec in HS. destruct HS as [q ->].
    rewrite Ext_spec in N by auto. congruence.
Qed.

Lemma until_slash_spec : forall b acc q, ~ In "/"%char b ->
  until_slash (rev b ++ q) acc = until_slash q (b ++ acc).
Proof.
  intros b. induction b as [|c b IH] using rev_ind; intros acc q H; auto.
  rewrite rev_app_distr. cbn [rev app until_slash]. rewrite in_app_iff in H. cbn in H.
  destruct (Ascii.eqb_spec c "/"); [subst; tauto|]. rewrite IH by tauto. rewrite <- app_assoc. reflexivity.
Qed.

Lemma Base_spec d b : b <> [] -> ~ In "/"%char b -> (d = [] \/ exists d', d = d' ++ ["/"%char]) ->
  Base (d ++ b) = b.
Proof.
  intros HN HS HD. unfold Base.
  assert (S1 : strip_slashes (rev (d ++ b)) = rev b ++ rev d).
  { rewrite rev_app_distr. destruct b as [|c b _] using rev_ind; [congruence|].
    rewrite rev_app_distr. cbn [rev app strip_slashes]. rewrite in_app_iff in HS. cbn in HS.
    destruct (Ascii.eqb_spec c "/"); [subst; tauto|reflexivity]. }
  rewrite S1, until_slash_spec by auto.
  assert (S2 : until_slash (rev d) (b ++ []) = b).
  { rewrite app_nil_r. destruct HD as [->|[d' ->]]; [reflexivity|]. rewrite rev_app_distr. reflexivity. }
  rewrite S2. destruct (d ++ b) eqn:E.
  - apply app_eq_nil in E. tauto.
  - destruct b; congruence.
Qed.

Lemma named_Ext p st e : named p st e -> Ext p = "."%char :: e.
Proof. intros (d & -> & HD & H1 & H2 & H3). rewrite app_assoc. apply Ext_spec; auto. Qed.

Lemma named_Base p st e : named p st e -> Base p = st ++ "."%char :: e.
Proof.
  intros (d & -> & HD & H1 & H2 & H3). apply Base_spec; auto.
  - destruct st; discriminate.
  - rewrite in_app_iff. cbn. intuition discriminate.
Qed.

Lemma named_out p st e suf : named p st e -> out_name p suf = st ++ suf.
Proof.
  intros H. pose proof H as (d & _ & _ & H1 & H2 & H3). unfold out_name. rewrite (named_Base _ _ _ H).
  rewrite Ext_spec by auto. rewrite TrimSuffix_app. reflexivity.
Qed.

(** Every path with an extension is [named]. *)
Lemma Ext_named p e : Ext p = "."%char :: e -> exists st, named p st e.
Proof.
  intros E. destruct (Ext_inv _ _ E ltac:(discriminate)) as (q & e' & -> & E' & H1 & H2). injection E' as <-.
  assert (G : forall q : path, exists d st, q = d ++ st /\ ~ In "/"%char st /\ (d = [] \/ exists d', d = d' ++ ["/"%char])).
  { clear. induction q as [|c q IH] using rev_ind.
    - exists [], []. cbn. auto.
    - destruct (ascii_dec c "/") as [->|N].
      + exists (q ++ ["/"%char]), []. rewrite app_nil_r. repeat split; auto. right. eauto.
      + destruct IH as (d & st & -> & HS & HD). exists d, (st ++ [c]). rewrite app_assoc. repeat split; auto.
        rewrite in_app_iff. cbn. intuition. }
  destruct (G q) as (d & st & -> & HS & HD). exists st, d. rewrite app_assoc. auto.
Qed.

Lemma named_unique p st e st' e' : named p st e -> named p st' e' -> st = st' /\ e = e'.
Proof.
  intros H H'. assert (E : "."%char :: e = "."%char :: e') by (rewrite <- (named_Ext _ _ _ H); apply (named_Ext _ _ _ H')).
  injection E as <-. split; auto. assert (B := named_Base _ _ _ H). rewrite (named_Base _ _ _ H') in B.
  apply app_inv_tail in B. auto.
Qed.

(** ** States *)
Definition final {A} (r : dres A) : dstate := match r with DOk _ s => s | DErr _ s => s end.

(** [s'] comes after [s], with the events [evs] in between. *)
Definition after (s s' : dstate) (evs : list event) : Prop := d_log s' = d_log s ++ evs.

Lemma after_refl s : after s s [].
Proof. unfold after. rewrite app_nil_r. auto. Qed.
Lemma after_trans s1 s2 s3 e1 e2 : after s1 s2 e1 -> after s2 s3 e2 -> after s1 s3 (e1 ++ e2).
Proof. unfold after. intros H1 H2. rewrite H2, H1, app_assoc. auto. Qed.

Section Facts.
Variable E : env.

(** Writing never fails half-way and removing works. *)
Definition no_write_fault : Prop := forall t, write_fault E t = None /\ close_fault E t = false.
Definition no_remove_fault : Prop := forall t, remove_fault E t = false.

(** The IR text that a .b file with contents [c] compiles to. *)
Definition ir_of (c ir : list ascii) : Prop := exists m, compile c false = Ok m tt /\ ir = render E m.

Lemma ir_of_unique c a b : ir_of c a -> ir_of c b -> a = b.
Proof. intros (m & E1 & ->) (m' & E2 & ->). congruence. Qed.

Ltac splits := repeat match goal with |- _ /\ _ => split end.

Lemma parse_ok c s m s' : parse_file E c s = DOk m s' ->
  compile c false = Ok m tt /\ d_fs s' = d_fs s /\ d_log s' = d_log s /\ d_tick s' = S (d_tick s).
Proof.
  unfold parse_file. destruct (read_fault E (d_tick s)) as [k|].
  - destruct (C09_read_failure (firstn k c)) as [e ->]. discriminate.
  - destruct (compile c false) as [m' []|e|]; try discriminate. intros H. injection H as <- <-.
    cbn. rewrite app_nil_r. auto.
Qed.

Lemma parse_err c s e s' : parse_file E c s = DErr e s' -> d_fs s' = d_fs s /\ d_log s' = d_log s.
Proof.
  unfold parse_file. destruct (match read_fault E (d_tick s) with Some _ => _ | None => _ end);
    intros H; inversion H; subst; cbn; rewrite app_nil_r; auto.
Qed.

(** compileSingleTo. *)
Lemma single_spec input out s :
  match compileSingleTo E input out s with
  | DOk _ s' => exists c ir, d_fs s input = Some c /\ ir_of c ir /\ after s s' [EvOpen input; EvCreate out]
      /\ d_fs s' out = Some ir /\ (forall p, p <> out -> d_fs s' p = d_fs s p)
  | DErr _ s' =>
      ((after s s' [] \/ after s s' [EvOpen input]) /\ d_fs s' = d_fs s)
      \/ (after s s' [EvOpen input; EvCreate out] /\ ~ no_write_fault
          /\ (exists c ir, d_fs s input = Some c /\ ir_of c ir)
          /\ (forall p, p <> out -> d_fs s' p = d_fs s p))
  end.
Proof.
  unfold compileSingleTo, dbind, os_open.
  destruct (d_fs s input) as [c|] eqn:EI.
  2:{ left. unfold after. cbn. rewrite app_nil_r. auto. }
  destruct (open_fault E (d_tick s)).
  { left. unfold after. cbn. rewrite app_nil_r. auto. }
  set (s1 := tick s (d_fs s) [EvOpen input]).
  destruct (parse_file E c s1) as [m s2|e s2] eqn:EP.
  2:{ apply parse_err in EP. destruct EP as [F L]. left. split; [right|].
      - unfold after. rewrite L. reflexivity.
      - rewrite F. reflexivity. }
  apply parse_ok in EP. destruct EP as (EC & F2 & L2 & T2).
  assert (HIR : ir_of c (render E m)) by (exists m; auto).
  unfold os_create. destruct (create_fault E (d_tick s2)).
  { left. split; [right|].
    - unfold after. cbn. rewrite app_nil_r, L2. reflexivity.
    - cbn. rewrite F2. reflexivity. }
  unfold write_string. cbn [tick d_tick d_fs d_log].
  destruct (write_fault E (S (d_tick s2))) as [k|] eqn:EW.
  { right. splits.
    - unfold after. cbn. rewrite L2. cbn. rewrite app_nil_r, <- app_assoc. reflexivity.
    - intros H. destruct (H (S (d_tick s2))). congruence.
    - eauto.
    - intros p Hp. cbn. rewrite !upd_other by auto. rewrite F2. reflexivity. }
  unfold close_file. cbn [tick d_tick d_fs d_log].
  destruct (close_fault E (S (S (d_tick s2)))) eqn:EF.
  { right. splits.
    - unfold after. cbn. rewrite L2. cbn. rewrite !app_nil_r, <- app_assoc. reflexivity.
    - intros H. destruct (H (S (S (d_tick s2)))). congruence.
    - eauto.
    - intros p Hp. cbn. rewrite !upd_other by auto. rewrite F2. reflexivity. }
  exists c, (render E m). splits; auto.
  - unfold after. cbn. rewrite L2. cbn. rewrite !app_nil_r, <- app_assoc. reflexivity.
  - cbn. apply upd_same.
  - intros p Hp. cbn. rewrite !upd_other by auto. rewrite F2. reflexivity.
Qed.

Lemma toIR_single a input out s : HasSuffix input (txt ".b") = true -> out <> [] ->
  compileToIR E (irArgs a input out) s = compileSingleTo E input out s.
Proof.
  intros H N. unfold compileToIR, irArgs. cbn [InputFiles OutputFile each].
  rewrite H. cbn [negb]. unfold dbind at 1 2. cbn [dret].
  destruct (path_eqb_spec out []); [contradiction|]. reflexivity.
Qed.

(** Removing a temporary file. *)
Lemma drop_spec a t s : exists s' evs, drop_temp E a t s = DOk tt s' /\ after s s' evs
  /\ (forall p, p <> t -> d_fs s' p = d_fs s p)
  /\ (forall ev, In ev evs -> ev = EvRemove t /\ SaveTemps a = false)
  /\ (SaveTemps a = true -> d_fs s' t = d_fs s t)
  /\ (SaveTemps a = false -> no_remove_fault -> d_fs s' t = None).
Proof.
  unfold drop_temp. destruct (SaveTemps a).
  - exists s, []. splits; auto using after_refl. 1: intros ev []. discriminate.
  - unfold os_remove. destruct (d_fs s t) eqn:ET.
    + destruct (remove_fault E (d_tick s)) eqn:ER.
      * do 2 eexists. splits; [reflexivity|unfold after; reflexivity|auto|intros ev []|discriminate|].
        intros _ H. rewrite H in ER. discriminate.
      * do 2 eexists. splits; [reflexivity|unfold after; reflexivity| | |discriminate|].
        -- intros p Hp. cbn. apply upd_other. auto.
        -- intros ev [<-|[]]. auto.
        -- intros _ _. cbn. apply upd_same.
    + do 2 eexists. splits; [reflexivity|unfold after; reflexivity|auto|intros ev []|discriminate|].
      cbn. auto.
Qed.

Lemma clang_spec args out s :
  match run_clang E args out s with
  | DOk _ s' => exists o, clang E (d_tick s) args (d_fs s) = ClangOk o
      /\ after s s' [EvClang args] /\ d_fs s' out = Some o /\ (forall p, p <> out -> d_fs s' p = d_fs s p)
  | DErr _ s' => after s s' [EvClang args] /\ (forall p, p <> out -> d_fs s' p = d_fs s p)
      /\ (forall o, clang E (d_tick s) args (d_fs s) <> ClangOk o)
  end.
Proof.
  unfold run_clang. destruct (clang E (d_tick s) args (d_fs s)) as [o|[c|]].
  - exists o. splits; auto; try reflexivity.
    + cbn. apply upd_same.
    + intros p Hp. cbn. apply upd_other. auto.
  - splits; try reflexivity; [|discriminate]. intros p Hp. cbn. apply upd_other. auto.
  - splits; try reflexivity; auto. discriminate.
Qed.

(** [processOne] of both functions. *)
Definition oneG (mk : CompileOptions -> path -> path -> list path) (a : CompileOptions) (input out : path) : D unit :=
  if HasSuffix input (txt ".b") then
    let tempIR := out ++ txt ".tmp.ll" in
    compileToIR E (irArgs a input tempIR) ;;
    on_error (run_clang E (mk a tempIR out) out) (drop_temp E a tempIR) ;;
    drop_temp E a tempIR
  else run_clang E (mk a input out) out.

Lemma out_tmp (o : path) t : t <> [] -> o <> o ++ t.
Proof. intros N H. rewrite <- (app_nil_r o) in H at 1. apply app_inv_head in H. congruence. Qed.

Lemma one_spec mk a input out s :
  let tmp := out ++ txt ".tmp.ll" in
  let isb := HasSuffix input (txt ".b") in
  let src := if isb then tmp else input in
  let r := oneG mk a input out s in
  let s' := final r in
  exists evs, after s s' evs
  /\ (forall p, p <> out -> ~ In (EvCreate p) evs -> d_fs s' p = d_fs s p)
  /\ (forall p, In (EvCreate p) evs -> isb = true /\ p = tmp
        /\ (SaveTemps a = false -> no_write_fault -> no_remove_fault -> d_fs s' tmp = None))
  /\ (forall p, In (EvRemove p) evs -> SaveTemps a = false /\ In (EvCreate p) evs)
  /\ (forall args, In (EvClang args) evs -> args = mk a src out
        /\ (isb = true -> exists c ir, d_fs s input = Some c /\ ir_of c ir))
  /\ ((forall args, ~ In (EvClang args) evs) -> d_fs s' out = d_fs s out)
  /\ match r with
     | DOk _ _ => In (EvClang (mk a src out)) evs /\ exists t f o, clang E t (mk a src out) f = ClangOk o
         /\ d_fs s' out = Some o
         /\ (forall p, (isb = true -> p <> tmp) -> f p = d_fs s p)
         /\ (isb = true -> exists c ir, d_fs s input = Some c /\ ir_of c ir /\ f tmp = Some ir
              /\ (SaveTemps a = true -> d_fs s' tmp = Some ir))
     | DErr _ _ => True
     end.
Proof.
  cbv zeta. unfold oneG. destruct (HasSuffix input (txt ".b")) eqn:HB.
  2:{ (* not a .b file *)
      pose proof (clang_spec (mk a input out) out s) as C. destruct (run_clang E (mk a input out) out s) as [[] s1|e s1]; cbn [final].
      - destruct C as (o & C & A & O & F). exists [EvClang (mk a input out)]. splits; auto.
        + intros p [H|[]]. discriminate.
        + intros p [H|[]]. discriminate.
        + intros args [H|[]]. injection H as <-. split; auto. discriminate.
        + intros H. exfalso. eapply H. left. reflexivity.
        + left. reflexivity.
        + do 3 eexists. splits; eauto. discriminate.
      - destruct C as (A & F & _). exists [EvClang (mk a input out)]. splits; auto.
        + intros p [H|[]]. discriminate.
        + intros p [H|[]]. discriminate.
        + intros args [H|[]]. injection H as <-. split; auto. discriminate.
        + intros H. exfalso. eapply H. left. reflexivity. }
  set (tmp := out ++ txt ".tmp.ll").
  assert (NT : tmp <> []). { unfold tmp. destruct out; discriminate. }
  assert (OT : out <> tmp). { unfold tmp. apply out_tmp. discriminate. }
  unfold dbind. rewrite toIR_single by auto.
  pose proof (single_spec input tmp s) as SS. destruct (compileSingleTo E input tmp s) as [[] s1|e s1]; cbn [final].
  2:{ destruct SS as [[A F]|(A & NW & _ & F)].
      - assert (exists evs, after s s1 evs /\ (evs = [] \/ evs = [EvOpen input])) as (evs & A' & HE)
          by (destruct A; eauto).
        exists evs. rewrite F. splits; auto.
        + intros p H. destruct HE as [->| ->]; [destruct H|]. destruct H as [H|[]]; discriminate.
        + intros p H. destruct HE as [->| ->]; [destruct H|]. destruct H as [H|[]]; discriminate.
        + intros p H. destruct HE as [->| ->]; [destruct H|]. destruct H as [H|[]]; discriminate.
      - exists [EvOpen input; EvCreate tmp]. splits; auto.
        + intros p H1 H2. apply F. intros ->. apply H2. cbn. auto.
        + intros p [H|[H|[]]]; [discriminate|]. injection H as <-. splits; auto. tauto.
        + intros p [H|[H|[]]]; discriminate.
        + intros p [H|[H|[]]]; discriminate. }
  destruct SS as (c & ir & EC & HIR & A1 & F1 & F1').
  unfold on_error. pose proof (clang_spec (mk a tmp out) out s1) as C.
  destruct (run_clang E (mk a tmp out) out s1) as [[] s2|e s2].
  - destruct C as (o & C & A2 & O & F2).
    destruct (drop_spec a tmp s2) as (s3 & ev3 & -> & A3 & F3 & HV & HS & HR). cbn [final].
    exists (([EvOpen input; EvCreate tmp] ++ [EvClang (mk a tmp out)]) ++ ev3). splits.
    + eauto using after_trans.
    + intros p H1 H2. assert (p <> tmp) by (intros ->; apply H2, in_or_app; left; cbn; auto).
      rewrite F3, F2, F1' by auto. auto.
    + intros p H. apply in_app_or in H. destruct H as [H|H]; [|apply HV in H; destruct H; discriminate].
      cbn in H. destruct H as [H|[H|[H|[]]]]; try discriminate. injection H as <-. auto.
    + intros p H. apply in_app_or in H. destruct H as [H|H].
      * cbn in H. destruct H as [H|[H|[H|[]]]]; discriminate.
      * apply HV in H. destruct H as [H HSF]. injection H as ->. split; auto. cbn. auto.
    + intros args H. apply in_app_or in H. destruct H as [H|H]; [|apply HV in H; destruct H; discriminate].
      cbn in H. destruct H as [H|[H|[H|[]]]]; try discriminate. injection H as <-. eauto.
    + intros H. exfalso. eapply H. apply in_or_app. left. cbn. eauto.
    + apply in_or_app. left. cbn. auto.
    + exists (d_tick s1), (d_fs s1), o. splits; auto.
      * rewrite F3 by auto. auto.
      * intros _. exists c, ir. splits; auto. intros HSV. rewrite HS, F2 by auto. auto.
  - destruct C as (A2 & F2 & _).
    destruct (drop_spec a tmp s2) as (s3 & ev3 & -> & A3 & F3 & HV & HS & HR). cbn [final].
    exists (([EvOpen input; EvCreate tmp] ++ [EvClang (mk a tmp out)]) ++ ev3). splits; auto.
    + eauto using after_trans.
    + intros p H1 H2. assert (p <> tmp) by (intros ->; apply H2, in_or_app; left; cbn; auto).
      rewrite F3, F2, F1' by auto. auto.
    + intros p H. apply in_app_or in H. destruct H as [H|H]; [|apply HV in H; destruct H; discriminate].
      cbn in H. destruct H as [H|[H|[H|[]]]]; try discriminate. injection H as <-. auto.
    + intros p H. apply in_app_or in H. destruct H as [H|H].
      * cbn in H. destruct H as [H|[H|[H|[]]]]; discriminate.
      * apply HV in H. destruct H as [H HSF]. injection H as ->. split; auto. cbn. auto.
    + intros args H. apply in_app_or in H. destruct H as [H|H]; [|apply HV in H; destruct H; discriminate].
      cbn in H. destruct H as [H|[H|[H|[]]]]; try discriminate. injection H as <-. eauto.
    + intros H. exfalso. eapply H. apply in_or_app. left. cbn. eauto.
Qed.

Lemma each_cons {A} (f : A -> D unit) x l s :
  each f (x :: l) s = match f x s with DOk _ s1 => each f l s1 | DErr e s1 => DErr e s1 end.
Proof. reflexivity. Qed.

Definition isb (f : path) : bool := HasSuffix f (txt ".b").

(** No .b input is the output of an earlier input. *)
Fixpoint ok_order (on : path -> path) (l : list path) : Prop :=
  match l with
  | [] => True
  | g :: r => (forall f, In f r -> isb f = true -> f <> on g) /\ ok_order on r
  end.

Lemma b_not_ll p q : isb (p ++ txt ".b") = true /\ p ++ txt ".b" <> q ++ txt ".ll".
Proof.
  split; [apply HasSuffix_spec; eauto|]. intros H. apply (f_equal (@rev ascii)) in H.
  rewrite !rev_app_distr in H. discriminate.
Qed.

Lemma isb_not_tmp f o : isb f = true -> f <> o ++ txt ".tmp.ll".
Proof.
  intros H. apply HasSuffix_spec in H. destruct H as [q ->]. change (txt ".tmp.ll") with (txt ".tmp" ++ txt ".ll").
  rewrite app_assoc. apply b_not_ll.
Qed.

Section Many.
Variable mk : CompileOptions -> path -> path -> list path.
Variable a : CompileOptions.
Variable on : path -> path.
Let tmp (f : path) : path := on f ++ txt ".tmp.ll".
Let src (f : path) : path := if isb f then tmp f else f.

Lemma many_spec l : forall s,
  (forall f g, In f l -> In g l -> on f <> tmp g) -> ok_order on l ->
  let r := each (fun f => oneG mk a f (on f)) l s in
  let s' := final r in
  exists evs, after s s' evs
  /\ (forall p, (forall f, In f l -> p <> on f) -> ~ In (EvCreate p) evs -> d_fs s' p = d_fs s p)
  /\ (forall p, In (EvCreate p) evs -> exists f, In f l /\ isb f = true /\ p = tmp f
        /\ (SaveTemps a = false -> no_write_fault -> no_remove_fault -> d_fs s' p = None))
  /\ (forall p, In (EvRemove p) evs -> SaveTemps a = false /\ In (EvCreate p) evs)
  /\ (forall args, In (EvClang args) evs -> exists f, In f l /\ args = mk a (src f) (on f)
        /\ (isb f = true -> exists c ir, d_fs s f = Some c /\ ir_of c ir))
  /\ (forall o, (forall g, In g l -> o <> tmp g) ->
        (forall f, In f l -> on f = o -> ~ In (EvClang (mk a (src f) o)) evs) -> d_fs s' o = d_fs s o)
  /\ match r with
     | DOk _ _ => forall f, In f l -> In (EvClang (mk a (src f) (on f))) evs
         /\ (isb f = true -> exists c ir, d_fs s f = Some c /\ ir_of c ir)
         /\ d_fs s' (on f) <> None
         /\ (NoDup (map on l) -> exists t fx o, clang E t (mk a (src f) (on f)) fx = ClangOk o
              /\ d_fs s' (on f) = Some o
              /\ (isb f = true -> exists c ir, d_fs s f = Some c /\ ir_of c ir /\ fx (tmp f) = Some ir
                   /\ (SaveTemps a = true -> d_fs s' (tmp f) = Some ir)))
     | DErr _ _ => True
     end.
Proof.
  induction l as [|g l IH]; intros s HD HO.
  - cbv zeta. cbn. exists []. splits; auto using after_refl; try (intros ? []).
  - cbv zeta. rewrite each_cons.
    destruct (one_spec mk a g (on g) s) as (ev1 & A1 & F1 & C1 & R1 & K1 & U1 & S1).
    fold (isb g) in *. fold (tmp g) in *. fold (src g) in *.
    destruct (oneG mk a g (on g) s) as [[] s1|e s1] eqn:E1; cbn [final] in *.
    2:{ exists ev1. splits; auto.
        - intros p H1 H2. apply F1; auto. apply H1. left. auto.
        - intros p H. destruct (C1 p H) as (B & -> & Hc). exists g. cbn. auto.
        - intros args H. destruct (K1 args H) as (-> & Hb). exists g. cbn. auto.
        - intros o H1 H2. destruct (path_eqb_spec (on g) o) as [<-|N].
          + apply U1. intros args H. destruct (K1 args H) as (-> & _). apply (H2 g); cbn; auto.
          + apply F1; auto. intros H. destruct (C1 o H) as (_ & -> & _). apply (H1 g); cbn; auto. }
    destruct HO as [HO1 HO2].
    assert (HDl : forall f g0, In f l -> In g0 l -> on f <> tmp g0) by (intros; apply HD; cbn; auto).
    destruct (IH s1 HDl HO2) as (ev2 & A2 & F2 & C2 & R2 & K2 & U2 & S2). cbv zeta in *.
    set (r := each (fun f => oneG mk a f (on f)) l s1) in *. set (s' := final r) in *.
    (* inputs of the remaining files are unchanged *)
    assert (HIn : forall f, In f l -> isb f = true -> d_fs s1 f = d_fs s f).
    { intros f Hf Hb. apply F1; auto. intros H. destruct (C1 f H) as (_ & Hp & _).
      exact (isb_not_tmp f (on g) Hb Hp). }
    exists (ev1 ++ ev2). splits.
    + eauto using after_trans.
    + intros p H1 H2. rewrite F2, F1; auto.
      * apply H1. left. auto.
      * intros H. apply H2, in_or_app. auto.
      * intros f Hf. apply H1. right. auto.
      * intros H. apply H2, in_or_app. auto.
    + intros p H. apply in_app_or in H.
      assert (HE : {In (EvCreate p) ev2} + {~ In (EvCreate p) ev2}).
      { apply in_dec. repeat decide equality. }
      destruct HE as [H2|H2].
      * destruct (C2 p H2) as (f & Hf & Hb & Hp & Hc). exists f. cbn. auto.
      * destruct H as [H|H]; [|contradiction]. destruct (C1 p H) as (B & -> & Hc). exists g.
        splits; cbn; auto. intros X Y Z. rewrite F2; auto. intros f Hf HE. apply (HD f g); cbn; auto.
    + intros p H. apply in_app_or in H. destruct H as [H|H].
      * destruct (R1 p H). split; auto. apply in_or_app. auto.
      * destruct (R2 p H). split; auto. apply in_or_app. auto.
    + intros args H. apply in_app_or in H. destruct H as [H|H].
      * destruct (K1 args H) as (-> & Hb). exists g. cbn. auto.
      * destruct (K2 args H) as (f & Hf & -> & Hb). exists f. splits; cbn; auto. intros B.
        rewrite <- HIn by auto. auto.
    + intros o H1 H2. rewrite U2.
      * destruct (path_eqb_spec (on g) o) as [<-|N].
        -- apply U1. intros args H. destruct (K1 args H) as (-> & _).
           apply (H2 g); cbn; auto. apply in_or_app. auto.
        -- apply F1; auto. intros H. destruct (C1 o H) as (_ & -> & _). apply (H1 g); cbn; auto.
      * intros f Hf. apply H1. right. auto.
      * intros f Hf HE H. apply (H2 f); cbn; auto. apply in_or_app. auto.
    + subst s'. destruct r as [[] s2|e s2]; auto. cbn [final] in *. intros f [<-|Hf].
      * destruct S1 as (K & t & fx & o & CL & O & FX & HB).
        splits.
        -- apply in_or_app. auto.
        -- intros B. destruct (HB B) as (c & ir & H1 & H2 & _). eauto.
        -- destruct (in_dec (list_eq_dec ascii_dec) (on g) (map on l)) as [H|H].
           ++ apply in_map_iff in H. destruct H as (f & HE & Hf). rewrite <- HE. apply S2. auto.
           ++ rewrite F2, O; [discriminate| |].
              ** intros f Hf HE. apply H. rewrite HE. apply in_map. auto.
              ** intros HC. destruct (C2 _ HC) as (f & Hf & _ & HE & _). apply (HD g f); cbn; auto.
        -- intros ND. inversion ND as [|x y NI ND' EQ]; subst.
           assert (NOUT : forall f, In f l -> on g <> on f).
           { intros f Hf HE. apply NI. rewrite HE. apply in_map. auto. }
           exists t, fx, o. splits; auto.
           ++ rewrite F2, O; auto. intros HC. destruct (C2 _ HC) as (f & Hf & _ & HE & _). apply (HD g f); cbn; auto.
           ++ intros B. destruct (HB B) as (c & ir & H1 & H2 & H3 & H4). exists c, ir. splits; auto.
              intros SV. rewrite F2; auto.
              ** intros f Hf HE. apply (HD f g); cbn; auto.
              ** intros HC. destruct (C2 _ HC) as (f & Hf & _ & HE & _). unfold tmp in HE.
                 apply app_inv_tail in HE. eapply NOUT; eauto.
      * destruct (S2 f Hf) as (K & HB & NN & HND). splits; auto.
        -- apply in_or_app. auto.
        -- intros B. rewrite <- HIn by auto. auto.
        -- intros ND. inversion ND as [|x y NI ND' EQ]; subst.
           destruct (HND ND') as (t & fx & o & CL & O & HX). exists t, fx, o. splits; auto.
           intros B. rewrite <- HIn by auto. auto.
Qed.
End Many.

Lemma irs_spec (on : path -> path) l : forall s,
  Forall (fun f => isb f = true) l -> ok_order on l ->
  let r := each (fun f => compileSingleTo E f (on f)) l s in
  let s' := final r in
  exists evs, after s s' evs
  /\ (forall p, ~ In (EvCreate p) evs -> d_fs s' p = d_fs s p)
  /\ (forall p, In (EvCreate p) evs -> exists f, In f l /\ p = on f
        /\ exists c ir, d_fs s f = Some c /\ ir_of c ir)
  /\ (forall p, ~ In (EvRemove p) evs) /\ (forall args, ~ In (EvClang args) evs)
  /\ match r with
     | DOk _ _ => forall f, In f l -> exists c ir, d_fs s f = Some c /\ ir_of c ir
         /\ In (EvCreate (on f)) evs /\ d_fs s' (on f) <> None
         /\ (NoDup (map on l) -> d_fs s' (on f) = Some ir)
     | DErr _ _ => True
     end.
Proof.
  induction l as [|g l IH]; intros s HB HO.
  - cbv zeta. cbn. exists []. splits; auto using after_refl; intros ? [].
  - cbv zeta. rewrite each_cons. pose proof (single_spec g (on g) s) as S1.
    inversion HB as [|x y Hg HBl]; subst. destruct HO as [HO1 HO2].
    destruct (compileSingleTo E g (on g) s) as [[] s1|e s1]; cbn [final].
    2:{ destruct S1 as [[A F]|(A & _ & HC & F)].
        - assert (exists evs, after s s1 evs /\ (evs = [] \/ evs = [EvOpen g])) as (evs & A' & HE)
            by (destruct A; eauto).
          exists evs. rewrite F. splits; auto; destruct HE as [->| ->]; intros p H; cbn in H; intuition discriminate.
        - exists [EvOpen g; EvCreate (on g)]. splits; auto.
          + intros p H. apply F. intros ->. apply H. cbn. auto.
          + intros p [H|[H|[]]]; [discriminate|]. injection H as <-. exists g. cbn. auto.
          + intros p [H|[H|[]]]; discriminate.
          + intros p [H|[H|[]]]; discriminate. }
    destruct S1 as (c & ir & HC & HIR & A1 & O1 & F1).
    destruct (IH s1 HBl HO2) as (ev2 & A2 & F2 & C2 & R2 & K2 & S2). cbv zeta in *.
    set (r := each (fun f => compileSingleTo E f (on f)) l s1) in *. set (s' := final r) in *.
    assert (HIn : forall f, In f l -> d_fs s1 f = d_fs s f).
    { intros f Hf. apply F1. apply HO1; auto. rewrite Forall_forall in HBl. auto. }
    exists ([EvOpen g; EvCreate (on g)] ++ ev2). splits.
    + eauto using after_trans.
    + intros p H. rewrite F2, F1; auto.
      * intros ->. apply H. cbn. auto.
      * intros H2. apply H, in_or_app. auto.
    + intros p H. apply in_app_or in H. destruct H as [[H|[H|[]]]|H]; [discriminate| |].
      * injection H as <-. exists g. split; [left; auto|]. split; auto. exists c, ir. auto.
      * destruct (C2 p H) as (f & Hf & -> & HX). exists f. cbn. splits; auto. rewrite <- HIn by auto. auto.
    + intros p H. apply in_app_or in H. destruct H as [[H|[H|[]]]|H]; try discriminate. eapply R2; eauto.
    + intros p H. apply in_app_or in H. destruct H as [[H|[H|[]]]|H]; try discriminate. eapply K2; eauto.
    + subst s'. destruct r as [[] s2|e s2]; auto. cbn [final] in *. intros f [<-|Hf].
      * exists c, ir. splits; auto.
        -- cbn. auto.
        -- destruct (in_dec (list_eq_dec ascii_dec) (on g) (map on l)) as [H|H].
           ++ apply in_map_iff in H. destruct H as (f & HE & Hf). rewrite <- HE.
              destruct (S2 f Hf) as (c' & ir' & _ & _ & _ & H & _). auto.
           ++ rewrite F2, O1; [discriminate|]. intros HX. destruct (C2 _ HX) as (f & Hf & HE & _).
              apply H. rewrite HE. apply in_map. auto.
        -- intros ND. inversion ND as [|x y NI ND' EQ]; subst. rewrite F2, O1; auto.
           intros HX. destruct (C2 _ HX) as (f & Hf & HE & _). apply NI. rewrite HE. apply in_map. auto.
      * destruct (S2 f Hf) as (c' & ir' & H1 & H2 & H3 & H4 & H5). exists c', ir'. rewrite <- HIn by auto.
        splits; auto.
        -- apply in_or_app. auto.
        -- intros ND. inversion ND; subst. auto.
Qed.

Lemma drops_spec a ts : forall s, exists s' evs, drop_temps E a ts s = DOk tt s' /\ after s s' evs
  /\ (forall p, ~ In p ts -> d_fs s' p = d_fs s p)
  /\ (forall ev, In ev evs -> exists t, ev = EvRemove t /\ In t ts /\ SaveTemps a = false)
  /\ (SaveTemps a = true -> forall p, d_fs s' p = d_fs s p)
  /\ (SaveTemps a = false -> no_remove_fault -> forall t, In t ts -> d_fs s' t = None).
Proof.
  unfold drop_temps. destruct (SaveTemps a) eqn:SV.
  - intros s. exists s, []. splits; auto using after_refl; [intros ? []|discriminate].
  - induction ts as [|t ts IH]; intros s.
    + exists s, []. cbn. splits; auto using after_refl; [intros ? []|intros _ _ ? []].
    + cbn [each]. unfold dbind.
      pose proof (drop_spec (mkOpts [] [] false OutputIR 0 false [] []) t s) as (s1 & e1 & E1 & A1 & F1 & V1 & _ & R1).
      unfold drop_temp in E1. cbn [SaveTemps] in *. rewrite E1.
      destruct (IH s1) as (s2 & e2 & E2 & A2 & F2 & V2 & _ & R2). rewrite E2.
      exists s2, (e1 ++ e2). splits; auto.
      * eauto using after_trans.
      * intros p H. cbn in H. rewrite F2, F1; auto.
      * intros ev H. apply in_app_or in H. destruct H as [H|H].
        -- apply V1 in H. destruct H as [-> _]. exists t. cbn. auto.
        -- apply V2 in H. destruct H as (t' & -> & H & _). exists t'. cbn. auto.
      * discriminate.
      * intros _ NR t' [<-|H].
        -- destruct (in_dec (list_eq_dec ascii_dec) t ts); auto. rewrite F2; auto.
        -- auto.
Qed.

(** The files passed to clang and the temporaries, for inputs numbered from [i]. *)
Fixpoint new_ins (a : CompileOptions) (i : nat) (l : list path) : list path :=
  match l with
  | [] => []
  | f :: r => (if isb f then temp_name a i f (txt ".b") else f) :: new_ins a (S i) r
  end.
Fixpoint new_temps (a : CompileOptions) (i : nat) (l : list path) : list path :=
  match l with
  | [] => []
  | f :: r => if isb f then temp_name a i f (txt ".b") :: new_temps a (S i) r else new_temps a (S i) r
  end.

Definition linkable (f : path) : Prop :=
  In (Ext f) [txt ".b"; txt ".ll"; txt ".s"; txt ".o"; txt ".a"].

Lemma isb_Ext f : isb f = path_eqb (Ext f) (txt ".b").
Proof. apply (HasSuffix_Ext f (txt "b")); cbn; intuition discriminate. Qed.

Lemma temp_ll a i f e : exists q, temp_name a i f e = q ++ txt ".ll".
Proof.
  unfold temp_name. destruct (_ && _).
  - exists (OutputFile a ++ txt ".tmp"). rewrite <- app_assoc. reflexivity.
  - exists (TrimSuffix (Base f) e ++ txt ".tmp." ++ txt (dec (Z.of_nat i))). rewrite <- !app_assoc. reflexivity.
Qed.

Lemma isb_not_temp a i g e f : isb f = true -> f <> temp_name a i g e.
Proof.
  intros H. apply HasSuffix_spec in H. destruct H as [q ->]. destruct (temp_ll a i g e) as [q' ->]. apply b_not_ll.
Qed.

Lemma temp_ne a i f e : temp_name a i f e <> [].
Proof. destruct (temp_ll a i f e) as [q ->]. destruct q; discriminate. Qed.

Lemma new_temps_spec a : forall l i p, In p (new_temps a i l) <->
  exists j f, nth_error l j = Some f /\ isb f = true /\ p = temp_name a (i + j) f (txt ".b").
Proof.
  induction l as [|g l IH]; intros i p; cbn [new_temps].
  - split; [intros []|]. intros ([|j] & f & H & _); discriminate.
  - assert (G : In p (new_temps a (S i) l) <->
      exists j f, nth_error (g :: l) (S j) = Some f /\ isb f = true /\ p = temp_name a (i + S j) f (txt ".b")).
    { rewrite IH. split; intros (j & f & H1 & H2 & H3); exists j, f; rewrite Nat.add_succ_r in *; auto. }
    destruct (isb g) eqn:B.
    + cbn [In]. rewrite G. split.
      * intros [<-|(j & f & H)]; [exists 0%nat, g; rewrite Nat.add_0_r; auto|exists (S j), f; auto].
      * intros ([|j] & f & H1 & H2 & H3).
        -- injection H1 as <-. rewrite Nat.add_0_r in H3. auto.
        -- right. exists j, f. auto.
    + rewrite G. split.
      * intros (j & f & H). exists (S j), f. auto.
      * intros ([|j] & f & H1 & H2 & H3); [cbn in H1; congruence|]. exists j, f. auto.
Qed.

Lemma exe_inputs_spec a l : forall i temps ins s,
  Forall linkable l ->
  let r := exe_inputs E a i l temps ins s in
  let s' := final r in
  exists evs, after s s' evs
  /\ (forall p, In (EvCreate p) evs -> In p (new_temps a i l))
  /\ (forall args, ~ In (EvClang args) evs)
  /\ (forall p, In (EvRemove p) evs -> SaveTemps a = false /\ (In p temps \/ In (EvCreate p) evs))
  /\ (forall p, ~ In p temps -> ~ In (EvCreate p) evs -> d_fs s' p = d_fs s p)
  /\ match r with
     | DOk (ts, is) _ => is = ins ++ new_ins a i l /\ ts = temps ++ new_temps a i l
         /\ (forall p, ~ In (EvRemove p) evs)
         /\ (forall p, ~ In (EvCreate p) evs -> d_fs s' p = d_fs s p)
         /\ (forall p, In p (new_temps a i l) -> In (EvCreate p) evs)
         /\ (forall j f, nth_error l j = Some f -> isb f = true -> exists c ir, d_fs s f = Some c /\ ir_of c ir
              /\ (NoDup (new_temps a i l) -> d_fs s' (temp_name a (i + j) f (txt ".b")) = Some ir))
     | DErr _ _ => SaveTemps a = false -> no_write_fault -> no_remove_fault ->
         forall p, In p temps \/ In (EvCreate p) evs -> d_fs s' p = None
     end.
Proof.
  induction l as [|g l IH]; intros i temps ins s HL; cbv zeta.
  - cbn [exe_inputs dret final new_ins new_temps]. exists []. rewrite !app_nil_r.
    splits; auto using after_refl. all: try (intros [|j] f H; discriminate). all: intros ? [].
  - inversion HL as [|x y Hg HLl]; subst. cbn [exe_inputs new_ins new_temps]. rewrite <- isb_Ext.
    destruct (isb g) eqn:B.
    + (* a .b file *)
      assert (XE : Ext g = txt ".b"). { rewrite isb_Ext in B. destruct (path_eqb_spec (Ext g) (txt ".b")); congruence. }
      rewrite XE. set (tmp := temp_name a i g (txt ".b")).
      unfold dbind, on_error. rewrite toIR_single by (auto; apply temp_ne).
      pose proof (single_spec g tmp s) as S1. destruct (compileSingleTo E g tmp s) as [[] s1|e s1].
      2:{ destruct (drops_spec a temps s1) as (s2 & ev2 & -> & A2 & F2 & V2 & SV2 & R2). cbn [final].
          assert (exists ev1, after s s1 ev1 /\ (forall p, In (EvCreate p) ev1 -> p = tmp /\ ~ no_write_fault)
                   /\ (forall args, ~ In (EvClang args) ev1) /\ (forall p, ~ In (EvRemove p) ev1)
                   /\ (forall p, ~ In (EvCreate p) ev1 -> d_fs s1 p = d_fs s p))
            as (ev1 & A1 & C1 & K1 & R1 & F1).
          { destruct S1 as [[A F]|(A & NW & _ & F)].
            - destruct A as [A|A]; [exists []|exists [EvOpen g]]; rewrite F; splits; auto;
                intros p H; cbn in H; intuition discriminate.
            - exists [EvOpen g; EvCreate tmp]. splits; auto.
              + intros p [H|[H|[]]]; [discriminate|]. injection H as <-. auto.
              + intros p [H|[H|[]]]; discriminate.
              + intros p [H|[H|[]]]; discriminate.
              + intros p H. apply F. intros ->. apply H. cbn. auto. }
          exists (ev1 ++ ev2). splits.
          - eauto using after_trans.
          - intros p H. apply in_app_or in H. destruct H as [H|H].
            + destruct (C1 p H) as [-> _]. cbn. auto.
            + destruct (V2 _ H) as (t & HE & _). discriminate.
          - intros p H. apply in_app_or in H. destruct H as [H|H]; [eapply K1; eauto|].
            destruct (V2 _ H) as (t & HE & _). discriminate.
          - intros p H. apply in_app_or in H. destruct H as [H|H]; [exfalso; eapply R1; eauto|].
            destruct (V2 _ H) as (t & HE & Ht & HS). injection HE as <-. auto.
          - intros p H1 H2. rewrite F2, F1; auto. intros H. apply H2, in_or_app. auto.
          - intros SV NW NR p [H|H].
            + auto.
            + apply in_app_or in H. destruct H as [H|H].
              * destruct (C1 p H) as [_ HX]. contradiction.
              * destruct (V2 _ H) as (t & HE & _). discriminate. }
      destruct S1 as (c & ir & HC & HIR & A1 & O1 & F1).
      destruct (IH (S i) (temps ++ [tmp]) (ins ++ [tmp]) s1 HLl) as (ev2 & A2 & C2 & K2 & R2 & F2 & S2).
      cbv zeta in *. set (r := exe_inputs E a (S i) l (temps ++ [tmp]) (ins ++ [tmp]) s1) in *.
      set (s' := final r) in *.
      assert (HIn : forall f, isb f = true -> d_fs s1 f = d_fs s f).
      { intros f Hb. apply F1. apply isb_not_temp. auto. }
      exists ([EvOpen g; EvCreate tmp] ++ ev2). splits.
      * eauto using after_trans.
      * intros p H. apply in_app_or in H. destruct H as [[H|[H|[]]]|H]; [discriminate| |].
        -- injection H as <-. cbn. auto.
        -- cbn. auto.
      * intros p H. apply in_app_or in H. destruct H as [[H|[H|[]]]|H]; try discriminate. eapply K2; eauto.
      * intros p H. apply in_app_or in H. destruct H as [[H|[H|[]]]|H]; try discriminate.
        destruct (R2 p H) as [SV [HX|HX]].
        -- apply in_app_or in HX. destruct HX as [HX|[<-|[]]]; auto. split; auto. right. cbn. auto.
        -- split; auto. right. apply in_or_app. auto.
      * intros p H1 H2. assert (p <> tmp) by (intros ->; apply H2; cbn; auto). rewrite F2, F1; auto.
        -- rewrite in_app_iff. cbn. intuition.
        -- intros H3. apply H2, in_or_app. auto.
      * subst s'. destruct r as [[ts is] s2|e s2]; cbn [final] in *.
        -- destruct S2 as (-> & -> & NR2 & F2' & C2' & S2). rewrite <- !app_assoc. cbn [app].
           splits; auto.
           ++ intros p [H|[H|H]]; try discriminate. eapply NR2; eauto.
           ++ intros p H. rewrite F2', F1; auto.
              ** intros ->. apply H. cbn. auto.
              ** intros H2. apply H. cbn. auto.
           ++ intros p [<-|H]; cbn; auto.
           ++ intros [|j] f Hj Hb.
              ** injection Hj as <-. exists c, ir. rewrite Nat.add_0_r. splits; auto. intros ND.
                 inversion ND as [|x y NI ND' EQ]; subst. fold tmp. rewrite F2', O1; auto.
              ** destruct (S2 j f Hj Hb) as (c' & ir' & H1 & H2 & H3). exists c', ir'.
                 rewrite <- HIn by auto. rewrite Nat.add_succ_r. splits; auto.
                 intros ND. inversion ND; subst. auto.
        -- intros SV NW NR p H. apply S2; auto. rewrite in_app_iff. cbn [In app] in H |- *.
           destruct H as [H|[H|[H|H]]]; auto; [discriminate|]. injection H as ->. auto.
    + (* passed on *)
      assert (HX : path_eqb (Ext g) (txt ".ll") || path_eqb (Ext g) (txt ".s")
                || path_eqb (Ext g) (txt ".o") || path_eqb (Ext g) (txt ".a") = true).
      { rewrite isb_Ext in B. destruct Hg as [H|[H|[H|[H|[H|[]]]]]]; rewrite <- H in B |- *; auto. }
      rewrite HX. destruct (IH (S i) temps (ins ++ [g]) s HLl) as (ev2 & A2 & C2 & K2 & R2 & F2 & S2).
      cbv zeta in *. exists ev2. splits; auto.
      destruct (exe_inputs E a (S i) l temps (ins ++ [g]) s) as [[ts is] s2|e s2]; auto.
      cbn [final] in *. destruct S2 as (-> & -> & NR2 & F2' & C2' & S2). rewrite <- !app_assoc. cbn [app].
      splits; auto. intros [|j] f Hj Hb.
      * cbn in Hj. congruence.
      * rewrite Nat.add_succ_r. exact (S2 j f Hj Hb).
Qed.

Lemma exe_spec a s : Forall linkable (InputFiles a) ->
  NoDup (new_temps a 0 (InputFiles a)) ->
  let temps := new_temps a 0 (InputFiles a) in
  let args := linkArgs E a (new_ins a 0 (InputFiles a)) in
  let r := (p <- exe_inputs E a 0 (InputFiles a) [] [] ;;
            let '(temps, ins) := p in
            on_error (run_clang E (linkArgs E a ins) (OutputFile a)) (drop_temps E a temps) ;;
            drop_temps E a temps) s in
  let s' := final r in
  exists evs, after s s' evs
  /\ (forall p, In (EvCreate p) evs -> In p temps
       /\ (SaveTemps a = false -> no_write_fault -> no_remove_fault -> d_fs s' p = None))
  /\ (forall x, In (EvClang x) evs -> x = args /\ forall f, In f (InputFiles a) -> isb f = true ->
       exists c ir, d_fs s f = Some c /\ ir_of c ir)
  /\ (forall p, In (EvRemove p) evs -> SaveTemps a = false /\ In (EvCreate p) evs)
  /\ (forall p, p <> OutputFile a -> ~ In (EvCreate p) evs -> d_fs s' p = d_fs s p)
  /\ ((forall x, ~ In (EvClang x) evs) -> forall p, ~ In (EvCreate p) evs -> d_fs s' p = d_fs s p)
  /\ match r with
     | DOk _ _ => In (EvClang args) evs
         /\ exists t fx o, clang E t args fx = ClangOk o
            /\ (~ In (OutputFile a) temps -> d_fs s' (OutputFile a) = Some o)
            /\ (forall p, ~ In p temps -> fx p = d_fs s p)
            /\ (forall j f, nth_error (InputFiles a) j = Some f -> isb f = true ->
                 let tmp := temp_name a j f (txt ".b") in
                 exists c ir, d_fs s f = Some c /\ ir_of c ir /\ fx tmp = Some ir
                 /\ (SaveTemps a = true -> tmp <> OutputFile a -> d_fs s' tmp = Some ir))
     | DErr _ _ => True
     end.
Proof.
  intros HL ND. cbv zeta. unfold dbind, on_error.
  destruct (exe_inputs_spec a (InputFiles a) 0 [] [] s HL) as (ev1 & A1 & C1 & K1 & R1 & F1 & S1).
  cbv zeta in *. destruct (exe_inputs E a 0 (InputFiles a) [] [] s) as [[ts is] s1|e s1]; cbn [final] in *.
  2:{ exists ev1. splits; auto.
      - intros x H. exfalso. eapply K1; eauto.
      - intros p H. destruct (R1 p H) as [SV [[]|HX]]. auto. }
  destruct S1 as (-> & -> & NR1 & F1' & C1' & S1). cbn [app].
  set (temps := new_temps a 0 (InputFiles a)) in *. set (args := linkArgs E a (new_ins a 0 (InputFiles a))) in *.
  assert (HB : forall f, In f (InputFiles a) -> isb f = true -> exists c ir, d_fs s f = Some c /\ ir_of c ir).
  { intros f Hf Hb. apply In_nth_error in Hf. destruct Hf as [j Hj].
    destruct (S1 j f Hj Hb) as (c & ir & H1 & H2 & _). eauto. }
  pose proof (clang_spec args (OutputFile a) s1) as C.
  assert (G : forall s2 s3 ev3, after s1 s2 [EvClang args] ->
     (forall p, p <> OutputFile a -> d_fs s2 p = d_fs s1 p) ->
     after s2 s3 ev3 -> (forall p, ~ In p temps -> d_fs s3 p = d_fs s2 p) ->
     (forall ev, In ev ev3 -> exists t, ev = EvRemove t /\ In t temps /\ SaveTemps a = false) ->
     (SaveTemps a = false -> no_remove_fault -> forall t, In t temps -> d_fs s3 t = None) ->
     let evs := (ev1 ++ [EvClang args]) ++ ev3 in
     after s s3 evs
     /\ (forall p, In (EvCreate p) evs -> In p temps
       /\ (SaveTemps a = false -> no_write_fault -> no_remove_fault -> d_fs s3 p = None))
     /\ (forall x, In (EvClang x) evs -> x = args /\ forall f, In f (InputFiles a) -> isb f = true ->
       exists c ir, d_fs s f = Some c /\ ir_of c ir)
     /\ (forall p, In (EvRemove p) evs -> SaveTemps a = false /\ In (EvCreate p) evs)
     /\ (forall p, p <> OutputFile a -> ~ In (EvCreate p) evs -> d_fs s3 p = d_fs s p)
     /\ ((forall x, ~ In (EvClang x) evs) -> forall p, ~ In (EvCreate p) evs -> d_fs s3 p = d_fs s p)
     /\ In (EvClang args) evs).
  { intros s2 s3 ev3 A2 F2 A3 F3 V3 R3 evs.
    assert (HI : forall ev, In ev evs <-> In ev ev1 \/ ev = EvClang args \/ In ev ev3).
    { intros ev. unfold evs. rewrite !in_app_iff. cbn. intuition. }
    assert (HCr : forall p, In (EvCreate p) evs <-> In p temps).
    { intros p. rewrite HI. split.
      - intros [H|[H|H]]; auto; [discriminate|]. destruct (V3 _ H) as (t & HE & _). discriminate.
      - intros H. left. auto. }
    splits.
    - unfold evs. eauto using after_trans.
    - intros p H. apply HCr in H. split; auto.
    - intros x H. apply HI in H. destruct H as [H|[H|H]].
      + exfalso. eapply K1; eauto.
      + injection H as ->. auto.
      + destruct (V3 _ H) as (t & HE & _). discriminate.
    - intros p H. apply HI in H. destruct H as [H|[H|H]].
      + exfalso. eapply NR1; eauto.
      + discriminate.
      + destruct (V3 _ H) as (t & HE & Ht & SV). injection HE as <-. rewrite HCr. auto.
    - intros p H1 H2. rewrite HCr in H2. rewrite F3, F2, F1'; auto.
    - intros H. exfalso. apply (H args). apply HI. auto.
    - apply HI. auto. }
  destruct (run_clang E args (OutputFile a) s1) as [[] s2|e s2].
  - destruct C as (o & CL & A2 & O & F2).
    destruct (drops_spec a temps s2) as (s3 & ev3 & -> & A3 & F3 & V3 & SV3 & R3). cbn [final].
    destruct (G s2 s3 ev3 A2 F2 A3 F3 V3 R3) as (G1 & G2 & G3 & G4 & G5 & G6 & G7).
    exists ((ev1 ++ [EvClang args]) ++ ev3). splits; auto.
    exists (d_tick s1), (d_fs s1), o. splits; auto.
    + intros H. rewrite F3; auto.
    + intros j f Hj Hb. destruct (S1 j f Hj Hb) as (c & ir & H1 & H2 & H3). specialize (H3 ND).
      exists c, ir. splits; auto. intros SV HO. rewrite SV3, F2 by auto. auto.
  - destruct C as (A2 & F2 & _).
    destruct (drops_spec a temps s2) as (s3 & ev3 & -> & A3 & F3 & V3 & SV3 & R3). cbn [final].
    destruct (G s2 s3 ev3 A2 F2 A3 F3 V3 R3) as (G1 & G2 & G3 & G4 & G5 & G6 & G7).
    exists ((ev1 ++ [EvClang args]) ++ ev3). splits; auto.
Qed.

End Facts.
