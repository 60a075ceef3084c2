(** * CmdFacts: the reader of command lines follows SpecCmd.v *)
From Coq Require Import List Ascii String ZArith Bool Lia.
From Verif Require Import Base Driver Cmdline SpecCmd.
Import ListNotations.
Local Open Scope list_scope.

Lemma path_eqb_eq p q : path_eqb p q = true <-> p = q.
Proof. unfold path_eqb. destruct (list_eq_dec ascii_dec p q); split; congruence. Qed.

Definition kind_of (o : opt) : kind :=
  match o with OOutput | OOptimize => KString | OLibraryDir | OLibrary => KSlice | _ => KBool end.

Lemma kind_switch o : kind_of o = KBool <-> is_switch o.
Proof. destruct o; cbn; split; intros; try congruence; try tauto; auto. Qed.

Lemma short_of o c : letter o c -> find_short c = Some (o, kind_of o).
Proof. destruct o; cbn [letter]; intros; try contradiction; subst; reflexivity. Qed.

Lemma short_inv c o k : find_short c = Some (o, k) -> letter o c /\ k = kind_of o.
Proof.
  unfold find_short. cbn [find formal fst snd].
  repeat match goal with
  | |- (match (if ?b then _ else _) with _ => _ end = _) -> _ =>
      let e := fresh in destruct b eqn:e; [apply Ascii.eqb_eq in e; subst; intros [= <- <-]; cbn; auto|]
  | |- (match find _ _ with _ => _ end = _) -> _ => cbn [find fst snd]
  end.
  all: discriminate.
Qed.

Lemma long_of o : find_long (long_name o) = Some (o, kind_of o).
Proof. destruct o; reflexivity. Qed.

Lemma long_inv key o k : find_long key = Some (o, k) -> key = long_name o /\ k = kind_of o.
Proof.
  unfold find_long. unfold formal.
  repeat (cbn [find fst snd]; match goal with
  | |- (match (if ?b then _ else _) with _ => _ end = _) -> _ =>
      let e := fresh in destruct b eqn:e; [apply path_eqb_eq in e; subst; intros [= <- <-]; cbn; auto|]
  end).
  cbn [find]. discriminate.
Qed.

Lemma long_head o : exists c r, long_name o = c :: r /\ Ascii.eqb c "-" = false /\ Ascii.eqb c "=" = false.
Proof. destruct o; cbn; eauto. Qed.

Lemma long_no_eq o : ~ In "="%char (long_name o).
Proof. destruct o; cbn; intuition discriminate. Qed.

Lemma split_eq_some n v acc : ~ In "="%char n -> split_eq (n ++ "="%char :: v) acc = (rev acc ++ n, Some v).
Proof.
  revert acc. induction n as [|c n IH]; intros acc H; cbn [app split_eq].
  - rewrite Ascii.eqb_refl, app_nil_r. auto.
  - destruct (Ascii.eqb c "=") eqn:E; [apply Ascii.eqb_eq in E; subst; destruct H; left; auto|].
    rewrite IH; [|intros X; apply H; right; auto]. cbn [rev]. rewrite <- app_assoc. auto.
Qed.
Lemma split_eq_none n acc : ~ In "="%char n -> split_eq n acc = (rev acc ++ n, None).
Proof.
  revert acc. induction n as [|c n IH]; intros acc H; cbn [split_eq].
  - rewrite app_nil_r. auto.
  - destruct (Ascii.eqb c "=") eqn:E; [apply Ascii.eqb_eq in E; subst; destruct H; left; auto|].
    rewrite IH; [|intros X; apply H; right; auto]. cbn [rev]. rewrite <- app_assoc. auto.
Qed.
Lemma split_eq_inv s acc key val : split_eq s acc = (key, val) -> exists n, key = rev acc ++ n
  /\ s = match val with Some v => n ++ "="%char :: v | None => n end.
Proof.
  revert acc. induction s as [|c s IH]; intros acc; cbn [split_eq].
  - intros [= <- <-]. exists []. rewrite app_nil_r. auto.
  - destruct (Ascii.eqb c "=") eqn:E.
    + apply Ascii.eqb_eq in E. subst. intros [= <- <-]. exists []. rewrite app_nil_r. auto.
    + intros H. destruct (IH _ H) as (n & -> & ->). exists (c :: n). cbn [rev]. rewrite <- app_assoc.
      split; [reflexivity|]. destruct val; reflexivity.
Qed.

Lemma has_prefix_true p s : has_prefix p s = true <-> exists r, s = p ++ r.
Proof.
  revert s. induction p as [|a p IH]; intros s; cbn [has_prefix app].
  - split; eauto.
  - destruct s as [|b s]; [split; [discriminate|intros [r [=]]]|].
    rewrite andb_true_iff, IH, Ascii.eqb_eq. split.
    + intros [-> [r ->]]. eauto.
    + intros [r [= -> ->]]. eauto.
Qed.

Section Facts.
Variable csv : path -> option (list path).

(** All settings, one after the other. *)
Fixpoint apply_all (ss : list setting) (x : vars) : option vars :=
  match ss with
  | [] => Some x
  | (o, v) :: r => match set csv o v x with Some x' => apply_all r x' | None => None end
  end.

Lemma apply_app ss ss' x : apply_all (ss ++ ss') x = match apply_all ss x with Some x' => apply_all ss' x' | None => None end.
Proof.
  revert x. induction ss as [|[o v] ss IH]; intros x; cbn [app apply_all]; auto.
  destruct (set csv o v x); auto.
Qed.

Definition is_some {A} (o : option A) : bool := match o with Some _ => true | None => false end.

Lemma no_test o c r : letter o c -> has_prefix (txt "test.") (c :: r) = false.
Proof. destruct o; cbn [letter]; intros; try contradiction; subst; reflexivity. Qed.

Lemma step_short c r next x : has_prefix (txt "test.") (c :: r) = false ->
  parseShortArg csv (c :: r) next x =
    match find_short c with
    | None => None
    | Some (o, k) =>
        match r, k with
        | "="%char :: (_ :: _) as v, _ => just false (set csv o (tl r) x)
        | _, KBool => match set csv o (txt "true") x with Some x' => parseShortArg csv r next x' | None => None end
        | _ :: _, _ => just false (set csv o r x)
        | [], _ => match next with Some v => just true (set csv o v x) | None => None end
        end
    end.
Proof. intros H. cbn [parseShortArg]. rewrite H. reflexivity. Qed.

(** How the letter [c] with the option [o] goes on. *)
Lemma eq_value_dec r : eq_value r \/ ~ eq_value r.
Proof.
  destruct r as [|a [|b r]]; [right|right|destruct (ascii_dec a "=")].
  - intros (v & _ & [=]).
  - intros (v & V & [= ->]). subst. auto.
  - subst. left. exists (b :: r). split; [discriminate|auto].
  - right. intros (v & _ & [= -> _]). auto.
Qed.
Lemma match_eq {A} (r : path) (a b : A) : ~ eq_value r ->
  (match r with "="%char :: _ :: _ => a | _ => b end) = b.
Proof.
  intros H. destruct r as [|c [|d r]]; auto.
  - destruct c as [[] [] [] [] [] [] [] []]; reflexivity.
  - destruct (ascii_dec c "=") as [->|N]; [destruct H; exists (d :: r); split; [discriminate|auto]|].
    destruct c as [[] [] [] [] [] [] [] []]; try reflexivity. congruence.
Qed.

Lemma short_equals o c v next x : letter o c -> v <> [] ->
  parseShortArg csv (c :: "="%char :: v) next x = just false (set csv o v x).
Proof.
  intros L V. rewrite step_short; [|eapply no_test; eauto]. rewrite (short_of _ _ L).
  destruct v; [congruence|reflexivity].
Qed.
Lemma short_switch o c r next x : letter o c -> is_switch o -> ~ eq_value r ->
  parseShortArg csv (c :: r) next x = match set csv o (txt "true") x with Some x' => parseShortArg csv r next x' | None => None end.
Proof.
  intros L S N. rewrite step_short; [|eapply no_test; eauto]. rewrite (short_of _ _ L).
  apply kind_switch in S. rewrite S.
  destruct r as [|a [|b r]]; auto.
  - destruct a as [[] [] [] [] [] [] [] []]; reflexivity.
  - destruct (ascii_dec a "=") as [->|M]; [destruct N; exists (b :: r); split; [discriminate|auto]|].
    destruct a as [[] [] [] [] [] [] [] []]; try reflexivity. congruence.
Qed.
Lemma short_joined o c r next x : letter o c -> ~ is_switch o -> r <> [] -> ~ eq_value r ->
  parseShortArg csv (c :: r) next x = just false (set csv o r x).
Proof.
  intros L S R N. rewrite step_short; [|eapply no_test; eauto]. rewrite (short_of _ _ L).
  assert (K : kind_of o <> KBool) by (intros K; apply kind_switch in K; auto).
  destruct r as [|a [|b r]]; [congruence| |].
  - destruct a as [[] [] [] [] [] [] [] []]; destruct (kind_of o); congruence || reflexivity.
  - destruct (ascii_dec a "=") as [->|M]; [destruct N; exists (b :: r); split; [discriminate|auto]|].
    destruct a as [[] [] [] [] [] [] [] []]; try congruence; destruct (kind_of o); congruence || reflexivity.
Qed.
Lemma short_last o c next x : letter o c -> ~ is_switch o ->
  parseShortArg csv [c] next x = match next with Some v => just true (set csv o v x) | None => None end.
Proof.
  intros L S. rewrite step_short; [|eapply no_test; eauto]. rewrite (short_of _ _ L).
  assert (K : kind_of o <> KBool) by (intros K; apply kind_switch in K; auto).
  destruct (kind_of o); congruence || reflexivity.
Qed.

Lemma cluster_parse s n ss : cluster s n ss -> forall next x, (n = None \/ next = n) ->
  parseShortArg csv s next x = just (is_some n) (apply_all ss x).
Proof.
  induction 1 as [|s|o c s n ss S L N H IH|o c v L V|o c v S L V N|o c v S L]; intros next x HN.
  - reflexivity.
  - cbn [txt list_ascii_of_string app parseShortArg]. 
    replace (has_prefix _ _) with true; [reflexivity|]. reflexivity.
  - rewrite (short_switch o); auto. cbn [apply_all].
    destruct (set csv o (txt "true") x); [|destruct n; reflexivity]. auto.
  - rewrite (short_equals o); auto. cbn [apply_all]. destruct (set csv o v x); reflexivity.
  - rewrite (short_joined o); auto. cbn [apply_all]. destruct (set csv o v x); reflexivity.
  - destruct HN as [HN| ->]; [discriminate|]. rewrite (short_last o); auto. cbn [apply_all].
    destruct (set csv o v x); reflexivity.
Qed.

Lemma cluster_inv s : forall next x x' u, parseShortArg csv s next x = Some (x', u) ->
  exists n ss, cluster s n ss /\ apply_all ss x = Some x' /\ u = is_some n /\ (n = None \/ n = next).
Proof.
  induction s as [|c s IH]; intros next x x' u H.
  - cbn in H. injection H as <- <-. exists None, []. split; [constructor|auto].
  - destruct (has_prefix (txt "test.") (c :: s)) eqn:P.
    + cbn [parseShortArg] in H. rewrite P in H. injection H as <- <-.
      apply has_prefix_true in P. destruct P as [r ->]. exists None, []. split; [constructor|auto].
    + rewrite step_short in H; auto. destruct (find_short c) as [[o k]|] eqn:F; [|discriminate].
      apply short_inv in F. destruct F as [HL ->].
      destruct (eq_value_dec s) as [(v & V & ->)|N].
      * destruct v as [|a v]; [congruence|]. cbn [tl] in H.
        unfold just in H. destruct (set csv o (a :: v) x) eqn:E; [|discriminate]. injection H as <- <-.
        exists None, [(o, a :: v)]. split; [constructor; auto|]. cbn [apply_all]. rewrite E. auto.
      * destruct (kind_of o) eqn:K.
        1:{ assert (S : is_switch o) by (apply kind_switch; auto).
            assert (H' : match set csv o (txt "true") x with Some x' => parseShortArg csv s next x' | None => None end = Some (x', u)).
            { rewrite <- H. symmetry. destruct s as [|a [|b s']]; auto.
              - destruct a as [[] [] [] [] [] [] [] []]; reflexivity.
              - destruct (ascii_dec a "=") as [->|M]; [destruct N; exists (b :: s'); split; [discriminate|auto]|].
                destruct a as [[] [] [] [] [] [] [] []]; try reflexivity. congruence. }
            destruct (set csv o (txt "true") x) as [x1|] eqn:E; [|discriminate].
            destruct (IH _ _ _ _ H') as (n & ss & HC & HA & HU & NN).
            exists n, ((o, txt "true") :: ss). split; [constructor; auto|]. cbn [apply_all]. rewrite E. auto. }
        all: assert (S : ~ is_switch o) by (intros S; apply kind_switch in S; congruence).
        all: destruct s as [|a s'];
          [destruct next as [v|]; [|discriminate]; unfold just in H;
           destruct (set csv o v x) eqn:E; [|discriminate]; injection H as <- <-;
           exists (Some v), [(o, v)]; split; [constructor; auto|]; cbn [apply_all]; rewrite E; auto|].
        all: assert (H' : just false (set csv o (a :: s') x) = Some (x', u));
          [rewrite <- H; symmetry; destruct s' as [|b s''];
            [destruct a as [[] [] [] [] [] [] [] []]; reflexivity|];
            destruct (ascii_dec a "=") as [->|M]; [destruct N; exists (b :: s''); split; [discriminate|auto]|];
            destruct a as [[] [] [] [] [] [] [] []]; try reflexivity; congruence|].
        all: unfold just in H'; destruct (set csv o (a :: s') x) eqn:E; [|discriminate]; injection H' as <- <-.
        all: exists None, [(o, a :: s')]; split; [constructor; auto; discriminate|]; cbn [apply_all]; rewrite E; auto.
Qed.

(** ** Long options *)
Lemma long_equals o v next x : parseLongArg csv (long_name o ++ "="%char :: v) next x = just false (set csv o v x).
Proof.
  unfold parseLongArg. destruct (long_head o) as (c & r & E & E1 & E2). rewrite E at 1.
  cbn [app]. rewrite E1, E2. cbn [orb]. rewrite split_eq_some; [|apply long_no_eq]. cbn [rev app].
  rewrite long_of. reflexivity.
Qed.
Lemma long_plain o next x : parseLongArg csv (long_name o) next x =
  match kind_of o, next with
  | KBool, _ => just false (set csv o (txt "true") x)
  | _, Some v => just true (set csv o v x)
  | _, None => None
  end.
Proof.
  unfold parseLongArg. destruct (long_head o) as (c & r & E & E1 & E2). rewrite E at 1.
  rewrite E1, E2. cbn [orb]. rewrite split_eq_none; [|apply long_no_eq]. cbn [rev app].
  rewrite long_of. reflexivity.
Qed.
Lemma long_arg_inv s next x x' u : parseLongArg csv s next x = Some (x', u) ->
  (exists o v, s = long_name o ++ "="%char :: v /\ set csv o v x = Some x' /\ u = false)
  \/ (exists o, s = long_name o /\ is_switch o /\ set csv o (txt "true") x = Some x' /\ u = false)
  \/ (exists o v, s = long_name o /\ ~ is_switch o /\ next = Some v /\ set csv o v x = Some x' /\ u = true).
Proof.
  unfold parseLongArg. destruct s as [|c r] eqn:ES; [discriminate|]. rewrite <- ES.
  destruct (Ascii.eqb c "-" || Ascii.eqb c "="); [discriminate|].
  destruct (split_eq s []) as [key val] eqn:E. apply split_eq_inv in E. destruct E as (n & -> & E). cbn [rev app].
  destruct (find_long n) as [[o k]|] eqn:F; [|discriminate]. apply long_inv in F. destruct F as [-> ->].
  destruct val as [v|].
  - destruct (set csv o v x) eqn:S; [|discriminate]. cbn. intros [= <- <-]. left. eauto 10.
  - destruct (kind_of o) eqn:K.
    + destruct (set csv o (txt "true") x) eqn:S; [|discriminate]. cbn. intros [= <- <-].
      apply kind_switch in K. right. left. eauto 10.
    + assert (~ is_switch o) by (intros X; apply kind_switch in X; congruence).
      destruct next as [v|]; [|discriminate]. destruct (set csv o v x) eqn:S; [|discriminate].
      cbn. intros [= <- <-]. right. right. eauto 10.
    + assert (~ is_switch o) by (intros X; apply kind_switch in X; congruence).
      destruct next as [v|]; [|discriminate]. destruct (set csv o v x) eqn:S; [|discriminate].
      cbn. intros [= <- <-]. right. right. eauto 10.
Qed.

(** ** Lines *)
Lemma args_file f r x files : (forall c s, f <> "-"%char :: c :: s) ->
  parseArgs csv (f :: r) x files = parseArgs csv r x (files ++ [f]).
Proof.
  intros H. destruct f as [|a [|b f]]; auto.
  - destruct a as [[] [] [] [] [] [] [] []]; reflexivity.
  - destruct (ascii_dec a "-") as [->|N]; [destruct (H b f); auto|].
    destruct a as [[] [] [] [] [] [] [] []]; try reflexivity. congruence.
Qed.
Definition go_on (st : step) (r files : list path) : option (vars * list path) :=
  match st with
  | None => None
  | Some (x', false) => parseArgs csv r x' files
  | Some (x', true) => match r with _ :: r' => parseArgs csv r' x' files | [] => None end
  end.
Lemma args_long s r x files : s <> [] ->
  parseArgs csv ((txt "--" ++ s) :: r) x files = go_on (parseLongArg csv s (hd_error r) x) r files.
Proof. destruct s; [congruence|]. reflexivity. Qed.
Lemma args_short c s r x files : c <> "-"%char ->
  parseArgs csv (("-"%char :: c :: s) :: r) x files = go_on (parseShortArg csv (c :: s) (hd_error r) x) r files.
Proof.
  intros H. cbn [parseArgs]. destruct (Ascii.eqb c "-") eqn:E; [apply Ascii.eqb_eq in E; congruence|reflexivity].
Qed.

Lemma long_name_nonempty o s : long_name o ++ s <> [].
Proof. destruct (long_head o) as (c & r & -> & _). discriminate. Qed.

Lemma item_parse ws ss fs : item ws ss fs -> forall r x files,
  parseArgs csv (ws ++ r) x files = match apply_all ss x with Some x' => parseArgs csv r x' (files ++ fs) | None => None end.
Proof.
  intros H r x files. destruct H as [f Hf|o v|o S|o v S|c s n ss Hc HC]; cbn [app apply_all].
  - apply args_file; auto.
  - rewrite args_long; [|apply long_name_nonempty]. rewrite long_equals. rewrite app_nil_r.
    destruct (set csv o v x); reflexivity.
  - rewrite args_long; [|rewrite <- (app_nil_r (long_name o)); apply long_name_nonempty].
    rewrite long_plain. apply kind_switch in S. rewrite S, app_nil_r.
    destruct (set csv o (txt "true") x); reflexivity.
  - rewrite args_long; [|rewrite <- (app_nil_r (long_name o)); apply long_name_nonempty].
    rewrite long_plain, app_nil_r. cbn [hd_error].
    destruct (kind_of o) eqn:K; [apply kind_switch in K; contradiction| |]; destruct (set csv o v x); reflexivity.
  - rewrite args_short; auto. rewrite app_nil_r.
    rewrite (cluster_parse _ _ _ HC).
    + unfold go_on, just. destruct (apply_all ss x) as [x'|]; auto. destruct n; reflexivity.
    + destruct n; auto.
Qed.

Lemma line_parse argv ss fs : line argv ss fs -> forall x files,
  parseArgs csv argv x files = match apply_all ss x with Some x' => Some (x', files ++ fs) | None => None end.
Proof.
  induction 1 as [|r|ws ss fs a ss' fs' Hi Hl IH]; intros x files.
  - cbn. rewrite app_nil_r. auto.
  - reflexivity.
  - rewrite (item_parse _ _ _ Hi), apply_app. destruct (apply_all ss x); auto. rewrite IH, app_assoc. auto.
Qed.

Lemma line_inv : forall k argv x files x' fs', (List.length argv <= k)%nat -> parseArgs csv argv x files = Some (x', fs') ->
  exists ss fs, line argv ss fs /\ apply_all ss x = Some x' /\ fs' = files ++ fs.
Proof.
  induction k as [|k IH]; intros argv x files x' fs' Hk H.
  { destruct argv; [|cbn in Hk; lia]. cbn in H. injection H as <- <-. exists [], []. rewrite app_nil_r. split; [constructor|auto]. }
  destruct argv as [|s r].
  { cbn in H. injection H as <- <-. exists [], []. rewrite app_nil_r. split; [constructor|auto]. }
  cbn [List.length] in Hk.
  assert (Operand : (forall c t, s <> "-"%char :: c :: t) -> exists ss fs, line (s :: r) ss fs /\ apply_all ss x = Some x' /\ fs' = files ++ fs).
  { intros N. rewrite args_file in H; auto. destruct (IH r _ _ _ _ ltac:(lia) H) as (ss & fs & Hl & Ha & ->).
    exists ss, (s :: fs). split; [exact (ln_item [s] [] [s] r ss fs (it_file s N) Hl)|].
    rewrite <- app_assoc. auto. }
  destruct s as [|a [|c s]]; [apply Operand; discriminate|apply Operand; discriminate|].
  destruct (ascii_dec a "-") as [->|N]; [|apply Operand; congruence]. clear Operand.
  destruct (ascii_dec c "-") as [->|N].
  - destruct s as [|c s].
    { cbn in H. injection H as <- <-. exists [], r. split; [apply ln_dashes|auto]. }
    change ("-"%char :: "-"%char :: c :: s) with (txt "--" ++ (c :: s)) in H. rewrite args_long in H; [|discriminate].
    revert H; match goal with |- go_on ?t _ _ = _ -> _ => destruct t as [[x1 u]|] eqn:P end; intros H; [|discriminate].
    destruct (long_arg_inv _ _ _ _ _ P) as [(o & v & E & S & ->)|[(o & E & S & S' & ->)|(o & v & E & S & HN & S' & ->)]].
    + cbn [go_on] in H. destruct (IH r _ _ _ _ ltac:(lia) H) as (ss & fs & Hl & Ha & ->).
      exists ((o, v) :: ss), fs. rewrite E. split; [exact (ln_item _ _ _ r ss fs (it_long_equals o v) Hl)|].
      cbn [apply_all]. rewrite S. auto.
    + cbn [go_on] in H. destruct (IH r _ _ _ _ ltac:(lia) H) as (ss & fs & Hl & Ha & ->).
      exists ((o, txt "true") :: ss), fs. rewrite E. split; [exact (ln_item _ _ _ r ss fs (it_long_switch o S) Hl)|].
      cbn [apply_all]. rewrite S'. auto.
    + destruct r as [|v' r]; [discriminate|]. injection HN as ->. cbn [go_on] in H.
      cbn [List.length] in Hk. destruct (IH r _ _ _ _ ltac:(lia) H) as (ss & fs & Hl & Ha & ->).
      exists ((o, v) :: ss), fs. rewrite E. split; [exact (ln_item _ _ _ r ss fs (it_long_next o v S) Hl)|].
      cbn [apply_all]. rewrite S'. auto.
  - rewrite args_short in H; auto.
    revert H; match goal with |- go_on ?t _ _ = _ -> _ => destruct t as [[x1 u]|] eqn:P end; intros H; [|discriminate].
    destruct (cluster_inv _ _ _ _ _ P) as (n & ss1 & HC & HA & -> & HN).
    destruct n as [v|].
    + destruct HN as [HN|HN]; [discriminate|]. destruct r as [|v' r]; [discriminate|]. injection HN as ->.
      cbn [go_on is_some] in H. cbn [List.length] in Hk. destruct (IH r _ _ _ _ ltac:(lia) H) as (ss & fs & Hl & Ha & ->).
      exists (ss1 ++ ss), fs. split; [exact (ln_item _ _ _ r ss fs (it_short c s (Some v') ss1 N HC) Hl)|].
      rewrite apply_app, HA. auto.
    + cbn [go_on is_some] in H. destruct (IH r _ _ _ _ ltac:(lia) H) as (ss & fs & Hl & Ha & ->).
      exists (ss1 ++ ss), fs. split; [exact (ln_item _ _ _ r ss fs (it_short c s None ss1 N HC) Hl)|].
      rewrite apply_app, HA. auto.
Qed.

(** ** Values *)
Lemma ParseBool_yes v : ParseBool v = Some true <-> In v true_words.
Proof.
  unfold ParseBool. fold true_words. fold false_words.
  destruct (existsb (path_eqb v) true_words) eqn:E.
  - apply existsb_exists in E. destruct E as (w & H & E). apply path_eqb_eq in E. subst. tauto.
  - split.
    + destruct (existsb (path_eqb v) false_words); discriminate.
    + intros H. rewrite <- not_true_iff_false, existsb_exists in E. destruct E. exists v. split; auto. apply path_eqb_eq. auto.
Qed.
Lemma words_disjoint v : In v true_words -> In v false_words -> False.
Proof. unfold true_words, false_words. cbn [In]. intuition (subst; discriminate). Qed.
Lemma ParseBool_no v : ParseBool v = Some false <-> In v false_words.
Proof.
  unfold ParseBool. fold true_words. fold false_words.
  destruct (existsb (path_eqb v) true_words) eqn:E.
  - apply existsb_exists in E. destruct E as (w & H & E). apply path_eqb_eq in E. subst.
    split; [discriminate|]. intros X. destruct (words_disjoint w); auto.
  - destruct (existsb (path_eqb v) false_words) eqn:E'.
    + apply existsb_exists in E'. destruct E' as (w & H & E'). apply path_eqb_eq in E'. subst. tauto.
    + split; [discriminate|]. intros H. rewrite <- not_true_iff_false, existsb_exists in E'. destruct E'.
      exists v. split; auto. apply path_eqb_eq. auto.
Qed.
Lemma ParseBool_words v b : ParseBool v = Some b <-> In v (if b then true_words else false_words).
Proof. destruct b; [apply ParseBool_yes|apply ParseBool_no]. Qed.

Lemma plain_special v : csv_plain v = true <-> ~ special v.
Proof.
  unfold csv_plain, special. rewrite forallb_forall. split.
  - intros H (c & Hc & Hs). specialize (H c Hc). cbn [In] in Hs.
    destruct Hs as [<-|[<-|[<-|[]]]]; discriminate.
  - intros H c Hc. destruct (Ascii.eqb c DQUOTE) eqn:E1; [apply Ascii.eqb_eq in E1; destruct H; exists c; subst; cbn; auto|].
    destruct (Ascii.eqb c "010") eqn:E2; [apply Ascii.eqb_eq in E2; destruct H; exists c; subst; cbn; auto|].
    destruct (Ascii.eqb c "013") eqn:E3; [apply Ascii.eqb_eq in E3; destruct H; exists c; subst; cbn; auto|]. reflexivity.
Qed.
Lemma special_dec v : special v \/ ~ special v.
Proof. destruct (csv_plain v) eqn:E; [right; apply plain_special; auto|left].
  unfold csv_plain in E. rewrite <- not_true_iff_false, forallb_forall in E.
  destruct (existsb (fun c => Ascii.eqb c DQUOTE || Ascii.eqb c "010" || Ascii.eqb c "013") v) eqn:X.
  - apply existsb_exists in X. destruct X as (c & Hc & X). exists c. split; auto.
    rewrite !orb_true_iff, !Ascii.eqb_eq in X. cbn. intuition auto.
  - destruct E. intros c Hc. apply negb_true_iff. apply not_true_iff_false. intros Y.
    rewrite <- not_true_iff_false, existsb_exists in X. destruct X. eauto.
Qed.

Lemma split_join v acc l : ~ In ","%char acc -> split_commas v acc = l ->
  l <> [] /\ rev acc ++ v = join l /\ Forall (fun x => ~ In ","%char x) l.
Proof.
  revert acc l. induction v as [|c v IH]; intros acc l HA <-; cbn [split_commas].
  - split; [discriminate|]. rewrite app_nil_r. split; [reflexivity|]. repeat constructor. rewrite <- in_rev. auto.
  - destruct (Ascii.eqb c ",") eqn:E.
    + apply Ascii.eqb_eq in E. subst. destruct (IH [] _ ltac:(intros []) eq_refl) as (N & J & F).
      split; [discriminate|]. split.
      * cbn [rev app] in J. rewrite J at 1. destruct (split_commas v []) eqn:X; [congruence|]. reflexivity.
      * constructor; auto. rewrite <- in_rev. auto.
    + destruct (IH (c :: acc) _ ltac:(intros [->|X]; [discriminate|auto]) eq_refl) as (N & J & F).
      cbn [rev] in J. rewrite <- app_assoc in J. auto.
Qed.
Lemma split_app x acc r : ~ In ","%char x -> split_commas (x ++ r) acc = split_commas r (rev x ++ acc).
Proof.
  revert acc. induction x as [|c x IH]; intros acc H; auto. cbn [app split_commas].
  destruct (Ascii.eqb c ",") eqn:E; [apply Ascii.eqb_eq in E; subst; destruct H; left; auto|].
  rewrite IH; [|intros X; apply H; right; auto]. cbn [rev]. rewrite <- app_assoc. auto.
Qed.
Lemma join_split l : l <> [] -> Forall (fun x => ~ In ","%char x) l -> split_commas (join l) [] = l.
Proof.
  induction l as [|x l IH]; intros N F; [congruence|]. inversion F; subst. destruct l as [|y l].
  - cbn [join]. rewrite <- (app_nil_r x) at 1. rewrite split_app; auto. cbn [split_commas].
    rewrite app_nil_r, rev_involutive. auto.
  - change (join (x :: y :: l)) with (x ++ ","%char :: join (y :: l)). rewrite split_app; auto.
    cbn [split_commas]. change (Ascii.eqb "," ",") with true. rewrite app_nil_r, rev_involutive. rewrite IH; auto. discriminate.
Qed.
Lemma members_csv v l : members csv v l <-> readAsCSV csv v = Some l.
Proof.
  unfold members, readAsCSV. destruct v as [|c v].
  - split.
    + intros [(_ & ->)|[(N & _)|((x & [] & _) & _)]]; congruence.
    + intros [= <-]. auto.
  - destruct (special_dec (c :: v)) as [S|S].
    + destruct (csv_plain (c :: v)) eqn:P; [apply plain_special in P; contradiction|].
      split; [intros [(X & _)|[(_ & X & _)|(_ & X)]]; congruence || contradiction|auto].
    + assert (P := S). apply plain_special in P. rewrite P. split.
      * intros [(X & _)|[(_ & _ & N & J & F)|(X & _)]]; [discriminate| |contradiction].
        rewrite J, join_split; auto.
      * intros [= H]. right. left. destruct (split_join (c :: v) [] l ltac:(intros []) H) as (N & J & F). cbn [rev app] in J.
        split; [discriminate|]. auto.
Qed.

(** ** All settings together *)
Lemma values_app o ss ss' : values o (ss ++ ss') = values o ss ++ values o ss'.
Proof. unfold values. apply flat_map_app. Qed.
Lemma values_own o v : values o [(o, v)] = [v].
Proof. destruct o; reflexivity. Qed.
Lemma values_other o o' v : o <> o' -> values o [(o', v)] = [].
Proof. destruct o, o'; intros; congruence || reflexivity. Qed.
Lemma opt_dec (o o' : opt) : {o = o'} + {o <> o'}.
Proof. decide equality. Qed.
Lemma final_own o d ss v : final o d (ss ++ [(o, v)]) = v.
Proof. unfold final. rewrite values_app, values_own. apply last_last. Qed.
Lemma final_other o o' d ss v : o <> o' -> final o d (ss ++ [(o', v)]) = final o d ss.
Proof. intros N. unfold final. rewrite values_app, values_other; auto. rewrite app_nil_r. auto. Qed.
Lemma on_own o ss v b : on o (ss ++ [(o, v)]) b <-> ParseBool v = Some b.
Proof. unfold on. rewrite final_own, ParseBool_words. tauto. Qed.
Lemma on_other o o' ss v b : o <> o' -> on o (ss ++ [(o', v)]) b <-> on o ss b.
Proof. intros N. unfold on. rewrite final_other; tauto. Qed.
Lemma coll_own o ss v l l' : collected csv o ss l -> readAsCSV csv v = Some l' -> collected csv o (ss ++ [(o, v)]) (l ++ l').
Proof.
  intros (ls & F & ->) H. exists (ls ++ [l']). rewrite values_app, values_own, List.concat_app. cbn. rewrite app_nil_r.
  split; auto. apply Forall2_app; auto. constructor; auto. apply members_csv. auto.
Qed.
Lemma coll_other o o' ss v l : o <> o' -> collected csv o ss l -> collected csv o (ss ++ [(o', v)]) l.
Proof. intros N (ls & F & ->). exists ls. rewrite values_app, values_other, app_nil_r; auto. Qed.

Definition holds (ss : list setting) (x : vars) : Prop :=
  v_output x = final OOutput [] ss
  /\ v_optimize x = final OOptimize (txt "0") ss
  /\ on OSaveTemps ss (v_save_temps x) /\ on OEmitLLVM ss (v_emit_llvm x)
  /\ on OCompile ss (v_compile x) /\ on OAssemble ss (v_assemble x)
  /\ on ODebug ss (v_debug x) /\ on OVersion ss (v_version x) /\ on OHelp ss (v_help x)
  /\ collected csv OLibraryDir ss (v_library_dirs x) /\ collected csv OLibrary ss (v_libraries x).

Lemma holds_defaults : holds [] defaults.
Proof.
  repeat split; try (cbn; tauto). all: exists []; split; [constructor|reflexivity].
Qed.

Lemma holds_set ss o v x x' : holds ss x -> set csv o v x = Some x' -> holds (ss ++ [(o, v)]) x'.
Proof.
  intros (H1 & H2 & H3 & H4 & H5 & H6 & H7 & H8 & H9 & H10 & H11) H.
  destruct o; unfold set in H;
    try (destruct (ParseBool v) as [b|] eqn:B; [|discriminate]);
    try (destruct (readAsCSV csv v) as [l|] eqn:RC; [|discriminate]);
    injection H as <-; unfold holds;
    cbn [v_output v_save_temps v_emit_llvm v_compile v_assemble v_optimize v_debug v_library_dirs v_libraries v_version v_help];
    repeat match goal with |- _ /\ _ => split end;
    first [ now rewrite final_own
          | now (rewrite final_other by discriminate)
          | now (apply on_own)
          | now (apply on_other; [discriminate|])
          | now (apply coll_own)
          | now (apply coll_other; [discriminate|]) ].
Qed.

Lemma holds_all ss' : forall ss x x', holds ss x -> apply_all ss' x = Some x' -> holds (ss ++ ss') x'.
Proof.
  induction ss' as [|[o v] ss' IH]; intros ss x x' H A; cbn [apply_all] in A.
  - injection A as <-. rewrite app_nil_r. auto.
  - destruct (set csv o v x) as [x1|] eqn:E; [|discriminate].
    assert (X := IH _ _ _ (holds_set _ _ _ _ _ H E) A). rewrite <- app_assoc in X. exact X.
Qed.

Lemma apply_proper ss : forall x x', apply_all ss x = Some x' -> proper ss.
Proof.
  induction ss as [|[o v] ss IH]; intros x x' A o' v' HI HS; [destruct HI|]. cbn [apply_all] in A.
  destruct (set csv o v x) as [x1|] eqn:E; [|discriminate]. destruct HI as [[= <- <-]|HI]; [|eapply IH; eauto].
  unfold set in E. rewrite in_app_iff.
  destruct o; cbn in HS; try contradiction;
    (destruct (ParseBool v) as [[]|] eqn:B; [left; apply ParseBool_yes; auto|right; apply ParseBool_no; auto|discriminate]).
Qed.

Lemma set_some o v x : (is_switch o -> In v (true_words ++ false_words)) ->
  (o = OLibraryDir \/ o = OLibrary -> exists l, members csv v l) -> exists x', set csv o v x = Some x'.
Proof.
  intros H1 H2. unfold set.
  destruct o; cbn [is_switch] in H1; eauto;
    try (destruct H2 as [l Hl]; [auto|]; apply members_csv in Hl; rewrite Hl; eauto);
    (specialize (H1 I); rewrite in_app_iff in H1;
     destruct H1 as [H1|H1]; [apply ParseBool_yes in H1|apply ParseBool_no in H1]; rewrite H1; eauto).
Qed.

Lemma apply_some ss : proper ss ->
  (forall o v, In (o, v) ss -> o = OLibraryDir \/ o = OLibrary -> exists l, members csv v l) ->
  forall x, exists x', apply_all ss x = Some x'.
Proof.
  induction ss as [|[o v] ss IH]; intros HP HL x; cbn [apply_all]; eauto.
  destruct (set_some o v x) as [x1 E].
  - intros. eapply HP; eauto. left. auto.
  - intros. eapply HL; eauto. left. auto.
  - rewrite E. apply IH; [intros ? ? ?; apply HP; right; auto|intros ? ? ?; apply HL; right; auto].
Qed.

Lemma coll_members o ss l v : collected csv o ss l -> In (o, v) ss -> exists l', members csv v l'.
Proof.
  intros (ls & F & _) HI. assert (HV : In v (values o ss)).
  { unfold values. apply in_flat_map. exists (o, v). split; auto. destruct o; cbn; auto. }
  revert HV. induction F; intros HV; [destruct HV|]. destruct HV as [<-|HV]; eauto.
Qed.

Lemma coll_fun o ss l l' : collected csv o ss l -> collected csv o ss l' -> l = l'.
Proof.
  intros (ls & F & ->) (ls' & F' & ->). f_equal.
  revert ls' F'. induction F as [|v l vs ls M F IH]; intros ls' F'; inversion F'; subst; auto.
  f_equal; [|apply IH; auto]. apply members_csv in M. apply members_csv in H1. congruence.
Qed.
Lemma on_fun o ss b b' : on o ss b -> on o ss b' -> b = b'.
Proof. unfold on. destruct b, b'; auto; intros; exfalso; eapply words_disjoint; eauto. Qed.
End Facts.
