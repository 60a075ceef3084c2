(** * ParseText: what the parser accepts is a text of the grammar of
    SpecAccept.v, and it does what the generator does on that tree *)
From Coq Require Import List Ascii String ZArith NArith Lia Bool.
From Verif Require Import Base Lexer SpecLex LexerFacts IR Builder Expr Stmt Decl Wp Syntax Pure ParseGen SpecText SpecAccept Joins.
Import ListNotations.
Open Scope Z_scope.
Open Scope m_scope.

(** ** Running on a text *)
(** [twp fl m P t c]: run on the remaining text [t], [m] satisfies [P] if it
    succeeds. *)
Definition twp {A} (fl : bool) (m : C A) (P : A -> list ascii -> cstate -> Prop) (t : list ascii) (c : cstate) : Prop :=
  seven t -> wp True m (fun a s' => exists t' c', s' = mkSt (mkLexer t' fl) c' /\ seven t' /\ P a t' c') (mkSt (mkLexer t fl) c).

Lemma seven_app a b : seven (a ++ b) <-> seven a /\ seven b.
Proof. apply Forall_app. Qed.
Lemma seven_cons a b : seven (a :: b) <-> (0 < code a < 128) /\ seven b.
Proof. split; [intros H; inversion H; auto|intros []; constructor; auto]. Qed.

Section T.
Variable fl : bool.
Notation twp := (twp fl).
Lemma twp_bind {A B} (m : C A) (f : A -> C B) P t c :
  twp m (fun a t' c' => twp (f a) P t' c') t c -> twp (bind m f) P t c.
Proof.
  intros H S. specialize (H S). apply wp_bind. eapply wp_mono; [exact H|].
  intros a s' (t' & c' & -> & S' & H'). apply H'. auto.
Qed.
Lemma twp_use {A B} (m : C A) (f : A -> C B) P Q t c :
  twp m P t c -> (forall a t' c', P a t' c' -> twp (f a) Q t' c') -> twp (bind m f) Q t c.
Proof.
  intros H1 H2. apply twp_bind. intros S. specialize (H1 S). eapply wp_mono; [exact H1|].
  intros a s' (t' & c' & -> & S' & H'). exists t', c'. auto.
Qed.
Lemma twp_mono {A} (m : C A) (P Q : A -> list ascii -> cstate -> Prop) t c :
  twp m P t c -> (forall a t' c', P a t' c' -> Q a t' c') -> twp m Q t c.
Proof.
  intros H1 H2 S. specialize (H1 S). eapply wp_mono; [exact H1|].
  intros a s' (t' & c' & -> & S' & H'). exists t', c'. auto.
Qed.
Lemma twp_seven {A} (m : C A) P t c : (seven t -> twp m P t c) -> twp m P t c.
Proof. intros H S. apply H; auto. Qed.
Lemma twp_ret {A} (a : A) (P : A -> _ -> _ -> Prop) t c : P a t c -> twp (ret a) P t c.
Proof. intros H S. apply wp_ret. exists t, c. auto. Qed.
Lemma twp_err {A} e (P : A -> _ -> _ -> Prop) t c : twp (errorf e) P t c. Proof. intros S. exact I. Qed.
Lemma twp_fail {A} e (P : A -> _ -> _ -> Prop) t c : twp (fail e) P t c. Proof. intros S. exact I. Qed.
Lemma twp_fuel {A} (P : A -> _ -> _ -> Prop) t c : twp out_of_fuel P t c. Proof. intros S. exact I. Qed.
Lemma twp_gen {A B} (m : C A) (f : A -> C B) P t c : pure m ->
  (forall a c', yields m c a c' -> twp (f a) P t c') -> twp (bind m f) P t c.
Proof. intros H1 H2 S. apply wp_genbT; auto. intros a c' Y. apply H2; auto. Qed.
Lemma twp_genT {A} (m : C A) (P : A -> _ -> _ -> Prop) t c : pure m ->
  (forall a c', yields m c a c' -> P a t c') -> twp m P t c.
Proof. intros H1 H2 S. apply wp_genT; auto. intros a c' Y. exists t, c'. auto. Qed.
Lemma twp_lift {A B} (m : L A) (f : A -> C B) (R : A -> list ascii -> Prop) P t c :
  (seven t -> forall a l', m (mkLexer t fl) = Ok a l' -> exists t', l' = mkLexer t' fl /\ seven t' /\ R a t') ->
  (forall a t', R a t' -> twp (f a) P t' c) -> twp (bind (lift m) f) P t c.
Proof.
  intros H1 H2 S. apply wp_bind, wp_lift; [auto|]. cbn [lx cs]. intros a l' E.
  destruct (H1 S a l' E) as (t' & -> & S' & HR). apply H2; auto.
Qed.
Lemma twp_liftOr {A B} msg (m : L A) (f : A -> C B) P t c : twp (bind (lift m) f) P t c -> twp (bind (liftOr msg m) f) P t c.
Proof. intros H S. specialize (H S). unfold wp, bind, liftOr in *. destruct (lift m _); auto. Qed.

Lemma twp_ws {B} (f : unit -> C B) P t c :
  (forall w t', t = w ++ t' -> layout w -> token_start t' -> twp (f tt) P t' c) -> twp (bind (lift Whitespace) f) P t c.
Proof.
  intros H. apply (twp_lift _ _ (fun _ t' => exists w, t = w ++ t' /\ layout w /\ token_start t')).
  - intros S [] l' E. destruct (Whitespace_spec t fl) as [lay rest E2 HL HT HE| |]; try discriminate.
    injection E as <-. exists rest. split; [auto|]. subst t. apply seven_app in S. split; [tauto|]. exists lay. auto.
  - intros [] t' (w & E & L & T). eapply H; eauto.
Qed.
Lemma twp_rc {B} (f : goerr + ascii -> C B) P t c :
  (forall e, t = [] -> twp (f (inl e)) P [] c) -> (forall ch t', t = ch :: t' -> 0 < code ch < 128 -> twp (f (inr ch)) P t' c) ->
  twp (bind rc f) P t c.
Proof.
  intros H1 H2. unfold rc. apply (twp_lift _ _ (fun r t' => match r with inl _ => t = [] /\ t' = [] | inr ch => t = ch :: t' /\ 0 < code ch < 128 end)).
  - intros S r l' E. unfold tryRead in E. cbn [l_in l_fail] in E. destruct t as [|ch t'].
    + injection E as <- <-. exists []. auto.
    + injection E as <- <-. exists t'. apply seven_cons in S. tauto.
  - intros [e|ch] t' E; [destruct E as [E ->]|destruct E]; eauto.
Qed.
Lemma twp_read {B} (f : ascii -> C B) P t c :
  (forall ch t', t = ch :: t' -> 0 < code ch < 128 -> twp (f ch) P t' c) -> twp (bind readChar f) P t c.
Proof.
  intros H. unfold readChar. apply twp_bind. apply twp_rc.
  - intros e _. apply twp_fail.
  - intros ch t' E HC. apply twp_ret. auto.
Qed.
Lemma twp_unread {B} (f : unit -> C B) P t t' ch c : t = ch :: t' -> (0 < code ch < 128) ->
  twp (f tt) P t c -> twp (bind (unread ch) f) P t' c.
Proof.
  intros -> HC H. unfold unread. apply (twp_lift _ _ (fun _ u => u = ch :: t')).
  - intros S [] l' E. injection E as <-. exists (ch :: t'). split; [reflexivity|]. split; [|auto]. apply seven_cons. auto.
  - intros [] u ->. exact H.
Qed.
Lemma twp_expect {B} x msg (f : unit -> C B) P t c :
  (forall t', t = x :: t' -> twp (f tt) P t' c) -> twp (bind (lift (ExpectChar x msg)) f) P t c.
Proof.
  intros H. apply (twp_lift _ _ (fun _ u => t = x :: u)).
  - intros S [] l' E. unfold ExpectChar, bind, tryRead in E. cbn [l_in l_fail] in E. destruct t as [|ch t'].
    + destruct (end_err _); discriminate.
    + destruct (Ascii.eqb_spec ch x) as [->|]; [|discriminate]. injection E as <-. exists t'. apply seven_cons in S. tauto.
  - intros [] u E. auto.
Qed.

(** Names. *)
Lemma seven_below id : seven id -> Forall (fun c => code c < 128) id.
Proof. apply Forall_impl. intros a. lia. Qed.
Lemma name_text id : seven id -> $(go_string id) = id.
Proof. intros S. rewrite list_go_string. apply utf8_seven. apply seven_below, S. Qed.
Definition isname (x : string) : Prop := Forall ident_char ($x) /\ seven ($x).
Lemma twp_ident {B} (f : string -> C B) P t c :
  (forall w x t', t = w ++ $x ++ t' -> layout w -> isname x -> not_starting ident_char t' ->
     (x = ""%string -> token_start t') -> twp (f x) P t' c) -> twp (bind (lift Identifier) f) P t c.
Proof.
  intros H. apply (twp_lift _ _ (fun x t' => exists w, t = w ++ $x ++ t' /\ layout w /\ isname x /\ not_starting ident_char t' /\
     (x = ""%string -> token_start t'))).
  - intros S x [t' fl'] E. destruct (Identifier_inv _ _ _ E) as (lay & id & E1 & HL & HI & HN & -> & HT & EF). cbn [l_in l_fail] in *.
    subst t fl'. apply seven_app in S. destruct S as [S1 S]. apply seven_app in S. destruct S as [S2 S3].
    exists t'. split; [auto|]. split; [auto|]. exists lay. unfold isname. rewrite name_text by auto. repeat split; auto.
    intros E0. apply HT. rewrite <- (name_text id S2), E0. reflexivity.
  - intros x t' (w & E & L & N & NS & T). eapply H; eauto.
Qed.
Lemma isname_dname x : isname x -> x <> ""%string -> xname x.
Proof.
  intros [H1 H2] N. split; [auto|]. split; [apply seven_below; auto|]. destruct x; [congruence|discriminate].
Qed.
Lemma twp_identOr {B} msg (f : string -> C B) P t c :
  (forall w x t', t = w ++ $x ++ t' -> layout w -> xname x -> not_starting ident_char t' -> twp (f x) P t' c) ->
  twp (bind (identOr msg) f) P t c.
Proof.
  intros H S.
  assert (G : twp (bind (lift Identifier) (fun x => if String.eqb x "" then errorf msg else f x)) P t c).
  { apply twp_ident. intros w x t' E L N NS T. destruct (String.eqb_spec x "") as [->|NE]; [apply twp_err|].
    eapply H; eauto. apply isname_dname; auto. }
  specialize (G S). unfold wp, bind, identOr in *. destruct (lift Identifier _) as [[|x n] s|e|]; auto.
Qed.

(** Constants. *)
Lemma Number_text t z l' : Number (mkLexer t fl) = Ok z l' ->
  exists w ds t', t = w ++ ds ++ t' /\ l' = mkLexer t' fl /\ layout w /\ xNum z ds /\ not_starting digit t' /\ (ds = [] -> token_start t').
Proof.
  unfold Number, bind.
  destruct (Whitespace_spec t fl) as [lay rest E HL HT HE| |]; try discriminate.
  cbn [l_in l_fail]. destruct rest as [|ch rest]; [discriminate|].
  destruct (number_loop _ 0 (ch :: rest)) as [num b] eqn:EN.
  pose proof (number_loop_inv _ _ _ _ _ EN) as (ds & E2 & HD & HB).
  intros H.
  assert (G : z = num /\ l' = mkLexer b fl).
  { destruct b; [destruct fl; [discriminate|]|]; injection H; intros; subst; auto. }
  destruct G as (-> & ->). exists lay, ds, b. subst t. rewrite E2. repeat split; auto.
  - destruct ds as [|d ds].
    + right. split; [|auto]. cbn in E2. subst b. cbn [number_loop] in EN.
      destruct (IsDigit ch) eqn:D; [|congruence]. exfalso. apply HB. apply IsDigit_digit. auto.
    + left. constructor; [discriminate|auto|].
      cbn [app] in E2. injection E2 as -> ->. rewrite app_comm_cons in EN.
      change 0 with (wrap64 0) in EN at 1. rewrite number_loop_spec in EN by auto. injection EN as <-.
      unfold base_of. rewrite eqb_code. change (code "0") with 48.
      apply is_word_wrap. reflexivity.
  - intros ->. cbn in E2. rewrite <- E2. exact HT.
Qed.

Lemma twp_number {B} (f : Z -> C B) P t c :
  (forall w ds z t', t = w ++ ds ++ t' -> layout w -> xNum z ds -> not_starting digit t' -> (ds = [] -> token_start t') ->
     twp (f z) P t' c) -> twp (bind (lift Number) f) P t c.
Proof.
  intros H. apply (twp_lift _ _ (fun z t' => exists w ds, t = w ++ ds ++ t' /\ layout w /\ xNum z ds /\ not_starting digit t' /\ (ds = [] -> token_start t'))).
  - intros S z l' E. destruct (Number_text _ _ _ E) as (w & ds & t' & E1 & -> & R). exists t'. split; [auto|].
    split; [|exists w, ds; tauto]. subst t. apply seven_app in S. destruct S as [_ S]. apply seven_app in S. tauto.
  - intros z t' (w & ds & E & R1 & R2 & R3 & R4). eapply H; eauto.
Qed.
Lemma twp_char {B} (f : Z -> C B) P t c :
  (forall s z t', t = s ++ t' -> tChr z (QUOTE :: s) -> twp (f z) P t' c) -> twp (bind (lift Character) f) P t c.
Proof.
  intros H. apply (twp_lift _ _ (fun z t' => exists s, t = s ++ t' /\ tChr z (QUOTE :: s))).
  - intros S z [t' fl'] E. destruct (Character_inv _ _ _ E) as (s & cs & HI & HL & E1 & EF & ->). cbn [l_in l_fail] in *.
    subst t fl'. exists t'. split; [auto|]. apply seven_app in S. destruct S as [S1 S]. apply seven_cons in S. split; [tauto|].
    exists (s ++ [QUOTE]). split; [rewrite <- app_assoc; reflexivity|]. econstructor; eauto. apply wrap64_is_word.
  - intros z t' (s & E & K). eapply H; eauto.
Qed.
Lemma escapes_seven e c : In (e, code c) escapes -> code c < 128.
Proof.
  intros H. assert (K : forall p, In p escapes -> snd p < 128).
  { intros p Hp. cbn [escapes In] in Hp. repeat (destruct Hp as [<-|Hp]; [cbn; lia|]). contradiction. }
  apply (K (e, code c)). exact H.
Qed.
Lemma items_seven q s bs : items q s bs -> seven s -> Forall (fun c => code c < 128) bs.
Proof.
  induction 1 as [|s c ss cs HI HS IH]; intros S; [constructor|]. apply seven_app in S. destruct S as [S1 S2].
  constructor; auto. destruct HI as [c HQ HT|e c HE].
  - apply seven_cons in S1. lia.
  - eapply escapes_seven; eauto.
Qed.
Lemma twp_string {B} (f : string -> C B) P t c :
  (forall s x t', t = s ++ t' -> tStr x (DQUOTE :: s) -> twp (f x) P t' c) -> twp (bind (lift String_) f) P t c.
Proof.
  intros H. apply (twp_lift _ _ (fun x t' => exists s, t = s ++ t' /\ tStr x (DQUOTE :: s))).
  - intros S x [t' fl'] E. destruct (String_inv _ _ _ E) as (s & cs & HI & E1 & EF & ->). cbn [l_in l_fail] in *.
    subst t fl'. exists t'. split; [auto|]. apply seven_app in S. destruct S as [S1 S]. apply seven_cons in S. split; [tauto|].
    exists (s ++ [DQUOTE]). split; [rewrite <- app_assoc; reflexivity|].
    pose proof (items_seven _ _ _ HI S1) as B7. rewrite go_string_seven by auto. constructor; auto.
  - intros z t' (s & E & K). eapply H; eauto.
Qed.

(** ** Texts *)
Definition starts (t : list ascii) (ch : ascii) : Prop := exists r, t = ch :: r.
Lemma starts_intro t ch r : t = ch :: r -> starts t ch. Proof. intros ->. eexists. reflexivity. Qed.
Lemma layout_start w t : layout w -> token_start (w ++ t) -> w = [].
Proof.
  destruct 1 as [|c r Hc|u r]; auto; cbn; intros [H1 H2]; [contradiction|]. exfalso. eapply H2; eauto.
Qed.
Lemma layout_token w t t' : t = w ++ t' -> layout w -> token_start t -> w = [] /\ t = t'.
Proof. intros -> L T. assert (w = []) as -> by (eapply layout_start; eauto). auto. Qed.
Lemma apart_app op a b : x_apart op (a ++ b) -> x_apart op a.
Proof. intros H c r ->. eapply H. reflexivity. Qed.
Lemma apart_free op s : (forall c, ~ In (op, c) x_glue) -> x_apart op s.
Proof. intros H c r _. apply H. Qed.
Lemma ns_app (P : ascii -> Prop) a b : not_starting P (a ++ b) -> not_starting P a.
Proof. destruct a; cbn; auto. Qed.
Lemma layout_cat a b : layout a -> layout b -> layout (a ++ b). Proof. apply layout_app. Qed.

(** The level of the binary operator at the beginning of a text; 20 if there
    is none. *)
Definition begins (c : ascii) (t : list ascii) : bool := match t with d :: _ => (d =? c)%char | [] => false end.
Definition oplevel (t : list ascii) : nat :=
  match t with
  | [] => 20%nat
  | c :: r =>
      if ((c =? "*") || (c =? "/") || (c =? "%"))%char then 3%nat
      else if ((c =? "+") || (c =? "-"))%char then (if begins c r then 20%nat else 4%nat)
      else if ((c =? "<") || (c =? ">"))%char then 6%nat
      else if (c =? "!")%char then 7%nat
      else if (c =? "=")%char then
        match r with
        | d :: r' => if (d =? "=")%char then (if begins "=" r' then 20%nat else 7%nat) else 20%nat
        | [] => 20%nat
        end
      else if (c =? "&")%char then 8%nat
      else if (c =? "|")%char then 10%nat
      else 20%nat
  end.
Lemma oplevel_ge3 t : (3 <= oplevel t)%nat.
Proof.
  destruct t as [|c r]; cbn [oplevel]; [lia|].
  repeat match goal with |- context [if ?b then _ else _] => destruct b end; try lia.
  destruct r as [|d r]; [lia|]. repeat match goal with |- context [if ?b then _ else _] => destruct b end; lia.
Qed.
Definition stop (lv : nat) (t : list ascii) : Prop := (Nat.min lv 12 < oplevel t)%nat.

(** The look-ahead after '='. *)
Lemma twp_tryEqEq {B} (f : bool -> C B) P t c :
  (forall t', t = "="%char :: t' -> begins "=" t' = false -> twp (f true) P t' c) ->
  (oplevel ("="%char :: t) = 20%nat -> twp (f false) P t c) ->
  twp (bind tryEqEq f) P t c.
Proof.
  intros H1 H2. unfold tryEqEq. apply twp_bind. apply twp_rc.
  - intros e ->. cbn [isCh unreadOk]. apply twp_bind, twp_ret, twp_ret. apply H2. reflexivity.
  - intros ch t1 E HC. cbn [isCh unreadOk]. destruct (Ascii.eqb_spec ch "=") as [->|NE].
    + apply twp_rc.
      * intros e ->. apply twp_ret. apply H1; auto.
      * intros c3 t2 E2 HC2. destruct (Ascii.eqb_spec c3 "=") as [->|N3].
        -- eapply twp_unread; [exact E2|exact HC2|]. eapply twp_unread; [exact E|exact HC|]. apply twp_ret.
           apply H2. subst. reflexivity.
        -- eapply twp_unread; [exact E2|exact HC2|]. apply twp_ret. apply H1; auto. subst t1. cbn.
           apply Ascii.eqb_neq. auto.
    + eapply twp_unread; [exact E|exact HC|]. apply twp_ret. apply H2. subst t. cbn.
      rewrite (proj2 (Ascii.eqb_neq _ _) NE). reflexivity.
Qed.

Ltac aeq := match goal with |- context [Ascii.eqb ?a ?b] => destruct (Ascii.eqb_spec a b) as [->|] end.
Lemma twp_compoundOp {B} (f : option cop -> C B) ch P t c : 0 < code ch < 128 -> ch <> "="%char ->
  (forall op t', "="%char :: ch :: t = $(asg_op op) ++ t' -> x_apart (asg_op op) t' -> twp (f op) P t' c) ->
  twp (bind (compoundOp (inr ch)) f) P t c.
Proof.
  intros HC NE H. unfold compoundOp. apply twp_bind.
  Ltac fin H := apply twp_ret; apply H; [reflexivity|apply apart_free; let K := fresh in intros ? K; cbn in K;
     repeat (destruct K as [K|K]; [discriminate|]); exact K].
  Ltac fin2 H E := apply twp_ret; apply H; [rewrite ?E; reflexivity|apply apart_free; let K := fresh in intros ? K; cbn in K;
     repeat (destruct K as [K|K]; [discriminate|]); exact K].
  aeq; [fin H|]. aeq; [fin H|]. aeq; [fin H|]. aeq; [fin H|]. aeq; [fin H|]. aeq; [fin H|]. aeq; [fin H|].
  destruct (Ascii.eqb_spec ch "<") as [->|].
  { apply twp_rc; cbn [isCh unreadOk].
    - intros e ->. apply twp_bind, twp_ret. fin H.
    - intros c3 t1 E HC2. aeq; [fin2 H E|]. aeq; [fin2 H E|].
      eapply twp_unread; [exact E|auto|]. fin H. }
  destruct (Ascii.eqb_spec ch ">") as [->|].
  { apply twp_rc; cbn [isCh unreadOk].
    - intros e ->. apply twp_bind, twp_ret. fin H.
    - intros c3 t1 E HC2. aeq; [fin2 H E|]. aeq; [fin2 H E|].
      eapply twp_unread; [exact E|auto|]. fin H. }
  assert (K : x_apart (asg_op None) (ch :: t)).
  { intros x r E. injection E as <- <-. cbn. intros K. repeat (destruct K as [K|K]; [congruence|]). exact K. }
  destruct (Ascii.eqb_spec ch "!") as [->|].
  { apply twp_rc; cbn [isCh unreadOk].
    - intros e ->. apply twp_bind, twp_ret. eapply twp_unread; [reflexivity|auto|]. apply twp_ret. apply H; auto.
    - intros c3 t1 E HC2. aeq; [fin2 H E|]. eapply twp_unread; [exact E|auto|].
      eapply twp_unread; [reflexivity|auto|]. apply twp_ret. apply H; auto. }
  eapply twp_unread; [reflexivity|auto|]. apply twp_ret. apply H; auto.
Qed.

(** ** Stepping *)
Ltac ts1 :=
  match goal with
  | |- ParseText.twp _ (errorf _) _ _ _ => apply twp_err
  | |- ParseText.twp _ (fail _) _ _ _ => apply twp_fail
  | |- ParseText.twp _ (bind (ret _) _) _ _ _ => apply twp_bind, twp_ret
  | |- ParseText.twp _ (bind (lift Whitespace) _) _ _ _ => apply twp_ws; intros ? ? ? ? ?
  | |- ParseText.twp _ (bind readChar _) _ _ _ => apply twp_read; intros ? ? ? ?
  | |- ParseText.twp _ (bind (lift (ExpectChar _ _)) _) _ _ _ => apply twp_expect; intros ? ?
  | |- ParseText.twp _ (bind (unread ?ch) _) _ ?t _ =>
      match goal with H : _ = ch :: t |- _ => eapply twp_unread; [exact H|assumption|]; apply starts_intro in H end
  | |- ParseText.twp _ (bind _ _) _ _ _ => apply twp_gen; [solve [auto with pure nocore]|intros ? ? ?]
  end.
Ltac unr := match goal with |- context [unreadOk (inr ?c)] => change (unreadOk (inr c)) with (unread c)
                          | |- context [unreadOk (inl ?c)] => change (unreadOk (inl c)) with (@ret st unit tt) end.

(** ** Expressions *)
Definition ePost (lv : nat) (c : cstate) (t : list ascii) (v : value) (t' : list ascii) (c' : cstate) : Prop :=
  exists e w s w', t = w ++ s ++ w' ++ t' /\ layout w /\ layout w' /\ xE lv e s /\ rest s w' t' /\ stop lv t' /\
    yields (gR e) c v c'.
(** The same for operands; [p] is text read before. *)
Definition oPost (lv : nat) (c : cstate) (t : list ascii) (v : value * bool) (t' : list ascii) (c' : cstate) : Prop :=
  exists e w s w', t = w ++ s ++ w' ++ t' /\ layout w /\ layout w' /\ xE lv e s /\ rest s w' t' /\ yields (gE e) c v c'.
(** Operands of postfix operators, with the text that follows. *)
Definition operand (a : expr) (sa t : list ascii) : Prop :=
  (xE 1 a sa /\ (forall x, a = EVar x -> token_start t /\ not_starting (eq "("%char) t)) \/
  (exists x, a = ECallee x /\ ident x /\ sa = $x /\ starts t "(").

Lemma letter_ident x : isname x -> (exists ch r, $x = ch :: r /\ letter ch) -> ident x.
Proof. intros [H1 H2] H. split; [auto|]. split; [apply seven_below; auto|auto]. Qed.

Lemma primaryIdent_text x t c : ident x ->
  twp (primaryIdent x) (fun v t' c' => exists e w', t = w' ++ t' /\ layout w' /\ operand e ($x) t' /\ yields (gE e) c v c') t c.
Proof.
  intros HI. unfold primaryIdent. ts1. apply twp_rc.
  - intros e ->. unr. cbn [isCh]. ts1. ts1.
    match goal with |- ParseText.twp _ (match ?a with _ => _ end) _ _ _ => destruct a as [addr|] end.
    + apply twp_ret. exists (EVar x), w. split; [auto|]. split; [auto|]. split.
      * left. split; [apply xE_up with 0%nat; [constructor; auto|lia]|]. intros y _. split; cbn; auto.
      * cbn [gen]. unfold genVar. eapply yields_bind; [eassumption|]. apply yields_ret.
    + ts1. match goal with E : [] = _ ++ _ |- _ => symmetry in E; apply app_eq_nil in E; destruct E as [-> ->] end.
      apply twp_rc; [intros e2 _; unr; cbn [isCh]|discriminate]. ts1.
      match goal with |- ParseText.twp _ ?m _ _ _ => assert (P : pure m) end.
      { apply pure_bind; [auto with pure|]. intros y. pure_tac. }
      apply twp_genT; [exact P|]. intros v2 c2 Y. exists (EVar x), w. split; [auto|]. split; [auto|]. split.
      * left. split; [apply xE_up with 0%nat; [constructor; auto|lia]|]. intros y _. split; cbn; auto.
      * cbn [gen]. unfold genVar. eapply yields_bind; [eassumption|]. exact Y.
  - intros ch t1 E HC. unr. ts1. cbn [isCh]. destruct (Ascii.eqb_spec ch "(") as [->|NP].
    + match goal with |- ParseText.twp _ ?m _ _ _ => change m with (genCallee x) end.
      apply twp_genT; [auto with pure|]. intros v c' Y. exists (ECallee x), w. split; [auto|]. split; [auto|]. split; [|exact Y].
      right. exists x. auto.
    + assert (OP : operand (EVar x) ($x) t').
      { left. split; [apply xE_up with 0%nat; [constructor; auto|lia]|]. intros y _. split; [auto|].
        destruct E as [r ->]. cbn. congruence. }
      ts1. match goal with |- ParseText.twp _ (match ?a with _ => _ end) _ _ _ => destruct a as [addr|] end.
      * apply twp_ret. exists (EVar x), w. split; [auto|]. split; [auto|]. split; [auto|].
        cbn [gen]. unfold genVar. eapply yields_bind; [eassumption|]. apply yields_ret.
      * ts1. match goal with E : t' = _ ++ _, L : layout _, T : token_start t' |- _ => destruct (layout_token _ _ _ E L T) as [-> <-] end.
        assert (G : pure (c <- get;;
            match findFuncByName c x with
            | Some f => v <- emitR (fun r => IPtrToInt r (fun_value f));; ret (v, false)
            | None => o <- GetOrDeclareFunction x;;
                match o with
                | Some fn => v <- emitR (fun r => IPtrToInt r fn);; ret (v, false)
                | None => errorf ("undefined identifier '" ++ x ++ "'")
                end
            end)).
        { apply pure_bind; [auto with pure|]. intros y. pure_tac. }
        apply twp_rc; [intros e2 E0; unr; cbn [isCh]; ts1|intros c3 t3 E3 HC3; unr; ts1; cbn [isCh]; destruct (c3 =? "=")%char; [apply twp_err|]].
        -- subst t'. destruct E as [r E]. discriminate.
        -- apply twp_genT; [exact G|]. intros v2 c2 Y. exists (EVar x), w. split; [auto|]. split; [auto|]. split; [auto|].
           cbn [gen]. unfold genVar. eapply yields_bind; [eassumption|]. exact Y.
Qed.

Lemma oplevel_in t : In (oplevel t) [3; 4; 6; 7; 8; 10; 20]%nat.
Proof.
  destruct t as [|c r]; cbn [oplevel]; [cbn; tauto|].
  repeat match goal with |- context [if ?b then _ else _] => destruct b end; try (cbn; tauto).
  destruct r as [|d r]; [cbn; tauto|]. repeat match goal with |- context [if ?b then _ else _] => destruct b end; cbn; tauto.
Qed.
Lemma xE_nul ch : 0 < code ch < 128 -> (ch =? NUL)%char = false.
Proof. intros H. apply Ascii.eqb_neq. intros ->. cbn in H. lia. Qed.

(** What the loop over binary operators gives for the text [T]. *)
Definition lPost (lv : nat) (c0 : cstate) (T : list ascii) (v : value) (t' : list ascii) (c' : cstate) : Prop :=
  exists e s w', T = s ++ w' ++ t' /\ layout w' /\ xE lv e s /\ rest s w' t' /\ stop lv t' /\ yields (gR e) c0 v c'.
Definition pPost (c0 : cstate) (T : list ascii) (v : value * bool) (t' : list ascii) (c' : cstate) : Prop :=
  exists e s w', T = s ++ w' ++ t' /\ layout w' /\ xE 1 e s /\ rest s w' t' /\ yields (gE e) c0 v c'.
Definition aPost (acc : list value) (c : cstate) (t : list ascii) (vs : list value) (t' : list ascii) (c' : cstate) : Prop :=
  exists es s ws, t = s ++ t' /\ xA es s /\ vs = acc ++ ws /\ yields (genArgs false es) c ws c'.

Ltac getR := match goal with Y : yields (gR _) _ _ _ |- _ =>
  unfold genR in Y; apply yields_bind_inv in Y; [|solve [auto with pure]]; destruct Y as ([] & ? & ? & ?) end.
Ltac rapp := rewrite <- ?app_assoc; cbn [app]; rewrite <- ?app_assoc.

Lemma stop_fall lv ch t :
  (((7 <=? lv)%nat && (ch =? "=")%char)%bool = false \/ oplevel (ch :: t) = 20%nat) ->
  ((10 <=? lv)%nat && (ch =? "|")%char)%bool = false ->
  ((8 <=? lv)%nat && (ch =? "&")%char)%bool = false ->
  ((7 <=? lv)%nat && (ch =? "!")%char)%bool = false ->
  ((6 <=? lv)%nat && (ch =? "<")%char)%bool = false ->
  ((6 <=? lv)%nat && (ch =? ">")%char)%bool = false ->
  (((4 <=? lv)%nat && ((ch =? "+")%char || (ch =? "-")%char))%bool = false \/ oplevel (ch :: t) = 20%nat) ->
  (((3 <=? lv)%nat && ((ch =? "*")%char || (ch =? "/")%char || (ch =? "%")%char))%bool = false \/ oplevel (ch :: t) = 20%nat) ->
  stop lv (ch :: t).
Proof.
  intros H1 H2 H3 H4 H5 H6 H7 H8. unfold stop.
  assert (G : oplevel (ch :: t) = 20%nat \/ oplevel (ch :: t) <> 20%nat) by lia. destruct G as [->|G]; [lia|].
  destruct H1 as [H1|]; [|contradiction]. destruct H7 as [H7|]; [|contradiction]. destruct H8 as [H8|]; [|contradiction].
  rewrite andb_false_iff, ?orb_false_iff, Nat.leb_gt in *.
  cbn [oplevel] in *.
  destruct (ch =? "*")%char; cbn [orb] in *; [destruct H8 as [H8|[[H8 _] _]]; [lia|discriminate]|].
  destruct (ch =? "/")%char; cbn [orb] in *; [destruct H8 as [H8|[[_ H8] _]]; [lia|discriminate]|].
  destruct (ch =? "%")%char; cbn [orb] in *; [destruct H8 as [H8|[_ H8]]; [lia|discriminate]|].
  destruct (ch =? "+")%char; cbn [orb] in *.
  { destruct (begins ch t); [lia|]. destruct H7 as [H7|[H7 _]]; [lia|discriminate]. }
  destruct (ch =? "-")%char; cbn [orb] in *.
  { destruct (begins ch t); [lia|]. destruct H7 as [H7|[_ H7]]; [lia|discriminate]. }
  destruct (ch =? "<")%char; cbn [orb] in *; [destruct H5; [lia|discriminate]|].
  destruct (ch =? ">")%char; cbn [orb] in *; [destruct H6; [lia|discriminate]|].
  destruct (ch =? "!")%char; [destruct H4; [lia|discriminate]|].
  destruct (ch =? "=")%char.
  { destruct H1; [|discriminate]. destruct t as [|d t]; [lia|]. destruct (d =? "=")%char; [|lia]. destruct (begins "=" t); lia. }
  destruct (ch =? "&")%char; [destruct H3; [lia|discriminate]|].
  destruct (ch =? "|")%char; [destruct H2; [lia|discriminate]|]. lia.
Qed.
Ltac band H := let H1 := fresh in let H2 := fresh in
  apply andb_prop in H; destruct H as [H1 H2]; apply Nat.leb_le in H1; apply Ascii.eqb_eq in H2; subst.

Theorem expr_text n :
  (forall lv t c, (2 <= lv)%nat -> twp (exprL n lv) (ePost lv c t) t c) /\
  (forall lv k lhs isL a sa w0 c0 t c, xE k a sa -> (k <= lv)%nat -> (k <= 10)%nat -> layout w0 -> rest sa w0 t ->
     (k <= oplevel t)%nat -> yields (gE a) c0 (lhs, isL) c ->
     twp (exprLoop n lv lhs isL) (lPost lv c0 (sa ++ w0 ++ t)) t c) /\
  (forall t c, twp (unary n) (oPost 2 c t) t c) /\
  (forall t c, twp (postfix n) (oPost 1 c t) t c) /\
  (forall lhs isL a sa w0 c0 t c, operand a sa t -> ~ joins sa (w0 ++ t) -> layout w0 -> yields (gE a) c0 (lhs, isL) c ->
     twp (postfixLoop n lhs isL) (pPost c0 (sa ++ w0 ++ t)) t c) /\
  (forall acc t c, twp (callArgs n acc) (aPost acc c t) t c) /\
  (forall t c, twp (primary n) (fun v t' c' => exists e w s w', t = w ++ s ++ w' ++ t' /\ layout w /\ layout w' /\ operand e s t' /\ ~ joins s (w' ++ t') /\
     yields (gE e) c v c') t c).
Proof.
  induction n as [|n (IHe & IHl & IHu & IHp & IHpl & IHa & IHpr)];
    [repeat split; intros; apply twp_fuel|].
  assert (BIN : forall op x l r lv k a sa w0 c0 isL lhs cx lhs' t t2 c, x_op op = Some (x, l, r) ->
     xE k a sa -> (k <= l)%nat -> (l <= lv)%nat -> (2 <= r <= 12)%nat -> (l <= 10)%nat -> (forall u, (r < oplevel u)%nat -> (l <= oplevel u)%nat) ->
     layout w0 -> t = $x ++ t2 -> x_apart x t2 -> yields (gE a) c0 (lhs, isL) cx -> yields (rval lhs isL) cx lhs' c ->
     twp (rhs <- exprL n r ;; v <- applyCop op lhs' rhs ;; exprLoop n lv v false) (lPost lv c0 (sa ++ w0 ++ t)) t2 c).
  { intros op x l r lv k a sa w0 c0 isL lhs cx lhs' t t2 c HO HA K1 K2 K3 K4 K5 L0 ET AP Y Y2.
    eapply twp_use; [apply IHe; lia|]. intros rhs t3 c3 (e1 & w & s & w' & E & L1 & L2 & HE & TS & ST & Y3). cbn beta.
    apply twp_gen; [auto with pure|]. intros v c4 Y4. getR.
    eapply twp_mono. 
    - eapply (IHl lv l v false (EBin op a e1) (sa ++ w0 ++ $x ++ w ++ s) w' c0 t3 c4); auto.
      + econstructor; eauto; [eapply xE_up; eauto|]. subst t2. rewrite app_assoc in AP. eapply apart_app; exact AP.
      + destruct (x_op_other _ _ _ _ HO). replace (sa ++ w0 ++ $x ++ w ++ s) with ((sa ++ w0 ++ $x ++ w) ++ s) by (rapp; reflexivity).
        apply rest_pre; auto; [|eapply xE_ne; eauto]. rewrite app_assoc. apply other_pre; auto.
      + apply K5. unfold stop in ST. lia.
      + ybuild.
    - intros v' t' c' (e' & s' & w'' & E' & R). exists e', s', w''. split; [|exact R].
      rewrite <- E'. subst t t2. rapp. reflexivity. }
  assert (OL : forall l r, In (l, r) [(3, 2); (4, 3); (6, 4); (6, 5); (7, 6); (8, 7); (10, 9)]%nat ->
     forall u, (r < oplevel u)%nat -> (l <= oplevel u)%nat).
  { intros l r H u. pose proof (oplevel_in u) as O. cbn [In] in H, O.
    repeat (destruct H as [H|H]; [injection H as <- <-; lia|]). contradiction. }
  repeat split.
  - intros lv t c HL. cbn [exprL]. eapply twp_use; [apply IHu|].
    intros [lhs isL] t1 c1 (e & w & s & w' & E & L1 & L2 & HE & TS & Y). cbv beta iota.
    eapply twp_mono; [eapply IHl with (k := 2%nat) (sa := s) (w0 := w'); eauto; [lia|]|].
    { pose proof (oplevel_ge3 t1). lia. }
    intros v t' c' (e' & s' & w'' & E' & R1 & R2 & R3 & R4 & R5). exists e', w, s', w''. split; [|tauto].
    subst t. rewrite E'. reflexivity.
  - intros lv k lhs isL a sa w0 c0 t c HA KL K10 L0 TS OP Y. cbn [exprLoop].
    apply twp_ws. intros w t' E L T. destruct (layout_token _ _ _ E L (proj1 TS)) as [-> <-]. clear E L T.
    assert (RV : forall t', t' = t -> stop lv t' -> twp (rval lhs isL) (lPost lv c0 (sa ++ w0 ++ t)) t' c).
    { intros t' -> ST. apply twp_genT; [auto with pure|]. intros v c2 Y2. exists a, sa, w0. split; [auto|]. split; [auto|].
      split; [eapply xE_up; eauto|]. split; [auto|]. split; [auto|]. ybuild. }
    apply twp_rc.
    { intros [| |] ->; try apply twp_fail. apply RV; [auto|]. unfold stop. cbn [oplevel]. lia. }
    intros ch t1 E HC. subst t.
    destruct ((13 <=? lv)%nat && (ch =? "?")%char)%bool eqn:B1.
    { band B1. do 8 ts1. eapply twp_use; [apply IHe; lia|].
      intros vT t2 c2 (e1 & w1 & s1 & w1' & E1 & L1 & L1' & HE1 & TS1 & ST1 & Y1). cbn beta. do 2 ts1.
      apply twp_ws. intros wc tc Ec Lc Tc. apply twp_expect. intros td Ed. ts1.
      eapply twp_use; [apply IHe; lia|].
      intros vE t5 c5 (e2 & w2 & s2 & w2' & E2 & L2 & L2' & HE2 & TS2 & ST2 & Y2). cbn beta. do 3 ts1.
      apply twp_genT; [auto with pure|]. intros v c6 Y6. getR. getR.
      exists (ECond a e1 e2), (sa ++ w0 ++ $"?" ++ w1 ++ s1 ++ (w1' ++ wc) ++ $":" ++ w2 ++ s2), w2'. split; [|split; [auto|split; [|split; [|split; [|]]]]].
      - subst. cbn [list_ascii_of_string]. rapp. reflexivity.
      - apply xE_up with 13%nat; [|lia]. apply xE_cond; auto using layout_cat. apply xE_up with k; [auto|lia].
      - replace (sa ++ w0 ++ $"?" ++ w1 ++ s1 ++ (w1' ++ wc) ++ $":" ++ w2 ++ s2) with (((sa ++ w0 ++ $"?" ++ w1 ++ s1 ++ (w1' ++ wc)) ++ $":" ++ w2) ++ s2) by (rapp; reflexivity).
        apply rest_pre; auto; [|eapply xE_ne; eauto]. apply other_pre; auto; [apply chr_other; reflexivity|discriminate].
      - unfold stop in *. lia.
      - apply yields_R. ybuild. }
    eapply (twp_use _ _ (fun b t' c' => c' = c /\ ((b = true /\ t1 = "="%char :: t' /\ begins "=" t' = false /\ (7 <= lv)%nat /\ ch = "="%char) \/
       (b = false /\ t' = t1 /\ (((7 <=? lv)%nat && (ch =? "=")%char)%bool = false \/ oplevel (ch :: t1) = 20%nat))))).
    { destruct ((7 <=? lv)%nat && (ch =? "=")%char)%bool eqn:B2.
      - band B2. assert (Q : twp (b <- tryEqEq ;; ret b) (fun b t' c' => c' = c /\ ((b = true /\ t1 = "="%char :: t' /\ begins "=" t' = false /\ (7 <= lv)%nat /\ "="%char = "="%char) \/
       (b = false /\ t' = t1 /\ (true = false \/ oplevel ("="%char :: t1) = 20%nat)))) t1 c).
        { apply twp_tryEqEq.
          - intros t' -> HB. apply twp_ret. split; [auto|]. left. auto.
          - intros H20. apply twp_ret. split; [auto|]. right. auto. }
        intros S. specialize (Q S). unfold wp, bind, ret in *. destruct (tryEqEq _); exact Q.
      - apply twp_ret. split; [auto|]. right. auto. }
    intros b t' c' (-> & [(-> & -> & HB & H7 & ->)|(-> & -> & H20)]).
    Ltac fre := apply apart_free; let K := fresh in intros ? K; cbn in K; repeat (destruct K as [K|K]; [discriminate|]); exact K.
    Ltac bn BIN OL op x l r lv k a sa OP := eapply (BIN op x l r lv k a sa);
      [reflexivity|eassumption|try solve [first [exact OP | cbn in OP; lia]]|lia|lia|lia|apply OL; cbn; tauto|eassumption|reflexivity| |eassumption|eassumption].
    { ts1. bn BIN OL (CCmp PEQ) "=="%string 7%nat 6%nat lv k a sa OP; [|fre]. cbn in OP. rewrite HB in OP. exact OP. }
    destruct ((14 <=? lv)%nat && (ch =? "=")%char)%bool eqn:B3.
    { band B3. destruct H20 as [H20|H20].
      { exfalso. apply andb_false_iff in H20. destruct H20 as [H20|H20]; [apply Nat.leb_gt in H20; lia|discriminate]. }
      assert (ASG : forall op t2 rhs t3 c3 v c4 (mm : C value), "="%char :: t1 = $(asg_op op) ++ t2 -> x_apart (asg_op op) t2 ->
          ePost 14 c t2 rhs t3 c3 ->
          mm = (match op with Some o => cur <- emitR (fun r => ILoad r lhs) ;; v <- applyCop o cur rhs ;; emit (IStore v lhs) ;;; ret v
                | None => emit (IStore rhs lhs) ;;; ret rhs end) ->
          isL = true -> yields mm c3 v c4 -> lPost lv c0 (sa ++ w0 ++ "="%char :: t1) v t3 c4).
      { intros op t2 rhs t3 c3 v c4 mm ET AP (e1 & w1 & s1 & w1' & E1 & L1 & L1' & HE1 & TS1 & ST1 & Y1) -> -> Y4.
        exists (EAsg op a e1), (sa ++ w0 ++ $(asg_op op) ++ w1 ++ s1), w1'. rewrite ET. subst t2. split; [rapp; reflexivity|].
        split; [auto|]. split; [|split; [|split; [unfold stop in *; lia|]]].
        - apply xE_up with 14%nat; [|lia]. apply xE_asg; auto; [apply xE_up with k; [auto|lia]|].
          rewrite app_assoc in AP. eapply apart_app; exact AP.
        - destruct (asg_other op). replace (sa ++ w0 ++ $(asg_op op) ++ w1 ++ s1) with ((sa ++ w0 ++ $(asg_op op) ++ w1) ++ s1) by (rapp; reflexivity).
          apply rest_pre; auto; [|eapply xE_ne; eauto]. rewrite app_assoc. apply other_pre; auto.
        - getR. apply yields_R. cbn [gen]. eapply yields_bind; [exact Y|]. cbv beta iota.
          eapply yields_bind; [eassumption|]. cbv beta iota. eapply yields_bind; [eassumption|]. cbv beta iota.
          destruct op as [o|].
          + apply yields_bind_inv in Y4; [|auto with pure]. destruct Y4 as (x1 & c5 & Y5 & Y4).
            apply yields_bind_inv in Y4; [|auto with pure]. destruct Y4 as (x2 & c6 & Y6 & Y4).
            apply yields_bind_inv in Y4; [|auto with pure]. destruct Y4 as (x3 & c7 & Y7 & Y4).
            apply yields_ret_inv in Y4. destruct Y4 as [-> ->]. ybuild.
          + apply yields_bind_inv in Y4; [|auto with pure]. destruct Y4 as (x3 & c7 & Y7 & Y4).
            apply yields_ret_inv in Y4. destruct Y4 as [-> ->]. ybuild. }
      assert (GO : forall op t2, "="%char :: t1 = $(asg_op op) ++ t2 -> x_apart (asg_op op) t2 -> isL = true ->
          twp (rhs <- exprL n 14 ;; match op with
             | Some o => cur <- emitR (fun r => ILoad r lhs) ;; v <- applyCop o cur rhs ;; emit (IStore v lhs) ;;; ret v
             | None => emit (IStore rhs lhs) ;;; ret rhs end) (lPost lv c0 (sa ++ w0 ++ "="%char :: t1)) t2 c).
      { intros op t2 ET AP EL. eapply twp_use; [apply IHe; lia|]. intros rhs t3 c3 EP. cbn beta.
        apply twp_genT.
        - destruct op; pure_tac.
        - intros v c4 Y4. eapply ASG; eauto. }
      destruct isL.
      2: { intros S. unfold wp, bind. destruct (rc _) as [r2 s2|e|]; auto. destruct (tryEqEqEq r2 s2) as [b s3|e|]; auto. exact I. }
      cbn [negb]. apply twp_rc.
      - intros e ->. unfold tryEqEqEq, compoundOp. cbn [isCh]. apply twp_bind, twp_ret. cbv iota. apply twp_bind, twp_ret.
        apply (GO None); auto. intros x r K. discriminate.
      - intros c2 t2 E2 HC2. unfold tryEqEqEq. cbn [isCh]. destruct (Ascii.eqb_spec c2 "=") as [->|N2].
        + subst t1. assert (exists t3, t2 = "="%char :: t3) as (t3 & ->).
          { cbn in H20. destruct t2 as [|d t3]; [discriminate|]. cbn in H20. destruct (Ascii.eqb_spec d "=") as [->|]; [eauto|discriminate]. }
          apply twp_bind. apply twp_rc; [intros e K; discriminate|]. intros c3 t4 E4 _. injection E4 as <- <-.
          cbn [isCh Ascii.eqb Bool.eqb]. apply twp_ret. cbv iota.
          apply (GO (Some (CCmp PEQ))); auto. apply apart_free. intros x K. cbn in K. repeat (destruct K as [K|K]; [discriminate|]). exact K.
        + apply twp_bind, twp_ret. cbv iota. apply twp_compoundOp; auto. intros op t' E' AP.
          apply GO; auto. subst t1. exact E'. }
    clear B3.
    destruct ((10 <=? lv)%nat && (ch =? "|")%char)%bool eqn:B4.
    { band B4. ts1. bn BIN OL (CBin OOr) "|"%string 10%nat 9%nat lv k a sa OP. fre. }
    destruct ((8 <=? lv)%nat && (ch =? "&")%char)%bool eqn:B5.
    { band B5. ts1. bn BIN OL (CBin OAnd) "&"%string 8%nat 7%nat lv k a sa OP. fre. }
    destruct ((7 <=? lv)%nat && (ch =? "!")%char)%bool eqn:B6.
    { band B6. apply twp_rc; cbn [isCh]; [intros; apply twp_err|]. intros c2 t2 E2 HC2.
      destruct (Ascii.eqb_spec c2 "=") as [->|]; [|apply twp_err]. subst t1. ts1.
      bn BIN OL (CCmp PNE) "!="%string 7%nat 6%nat lv k a sa OP. fre. }
    destruct ((6 <=? lv)%nat && (ch =? "<")%char)%bool eqn:B7.
    { band B7. ts1. apply twp_rc; cbn [isCh].
      - intros e ->. unr. ts1. bn BIN OL (CCmp PSLT) "<"%string 6%nat 5%nat lv k a sa OP. fre.
      - intros c2 t2 E2 HC2. unr. destruct (Ascii.eqb_spec c2 "<") as [->|].
        { subst t1. bn BIN OL (CBin OShl) "<<"%string 6%nat 4%nat lv k a sa OP. fre. }
        destruct (Ascii.eqb_spec c2 "=") as [->|].
        { subst t1. bn BIN OL (CCmp PSLE) "<="%string 6%nat 5%nat lv k a sa OP. fre. }
        ts1. bn BIN OL (CCmp PSLT) "<"%string 6%nat 5%nat lv k a sa OP. fre. }
    destruct ((6 <=? lv)%nat && (ch =? ">")%char)%bool eqn:B8.
    { band B8. ts1. apply twp_rc; cbn [isCh].
      - intros e ->. unr. ts1. bn BIN OL (CCmp PSGT) ">"%string 6%nat 5%nat lv k a sa OP. fre.
      - intros c2 t2 E2 HC2. unr. destruct (Ascii.eqb_spec c2 ">") as [->|].
        { subst t1. bn BIN OL (CBin OAShr) ">>"%string 6%nat 4%nat lv k a sa OP. fre. }
        destruct (Ascii.eqb_spec c2 "=") as [->|].
        { subst t1. bn BIN OL (CCmp PSGE) ">="%string 6%nat 5%nat lv k a sa OP. fre. }
        ts1. bn BIN OL (CCmp PSGT) ">"%string 6%nat 5%nat lv k a sa OP. fre. }
    destruct ((4 <=? lv)%nat && ((ch =? "+")%char || (ch =? "-")%char))%bool eqn:B9.
    { apply andb_prop in B9. destruct B9 as [B9 B10]. apply Nat.leb_le in B9. apply orb_prop in B10.
      assert (CH : ch = "+"%char \/ ch = "-"%char) by (rewrite !Ascii.eqb_eq in B10; auto). clear B10.
      assert (PM : forall t2, t2 = t1 -> begins ch t1 = false ->
          twp (lhs <- rval lhs isL;; rhs <- exprL n 3;;
             v <- emitR (fun r => IBin r (if Ascii.eqb ch "+" then OAdd else OSub) lhs rhs);; exprLoop n lv v false)
            (lPost lv c0 (sa ++ w0 ++ ch :: t1)) t2 c).
      { intros t2 -> HB. ts1. destruct CH as [->| ->].
        - change (Ascii.eqb "+" "+") with true. cbv iota. bn BIN OL (CBin OAdd) "+"%string 4%nat 3%nat lv k a sa OP.
          + cbn [oplevel Ascii.eqb Bool.eqb orb] in OP. rewrite HB in OP. exact OP.
          + intros x r -> K. cbn in HB, K. apply Ascii.eqb_neq in HB. repeat (destruct K as [K|K]; [try discriminate; congruence|]). exact K.
        - change (Ascii.eqb "-" "+") with false. cbv iota. bn BIN OL (CBin OSub) "-"%string 4%nat 3%nat lv k a sa OP.
          + cbn [oplevel Ascii.eqb Bool.eqb orb] in OP. rewrite HB in OP. exact OP.
          + intros x r -> K. cbn in HB, K. apply Ascii.eqb_neq in HB. repeat (destruct K as [K|K]; [try discriminate; congruence|]). exact K. }
      apply twp_rc; cbn [isCh runeOf].
      - intros e ->. change (Ascii.eqb NUL NUL) with true. cbv iota. ts1. apply PM; auto.
      - intros c2 t2 E2 HC2. destruct (Ascii.eqb_spec c2 ch) as [->|N2].
        + eapply twp_unread; [exact E2|auto|]. eapply twp_unread; [reflexivity|auto|]. apply RV; [reflexivity|].
          subst t1. unfold stop. destruct CH as [->| ->]; cbn [oplevel Ascii.eqb Bool.eqb orb begins]; lia.
        + rewrite xE_nul by auto. unr. eapply twp_unread; [exact E2|auto|]. apply PM; auto. subst t1. cbn. apply Ascii.eqb_neq. auto. }
    destruct ((3 <=? lv)%nat && ((ch =? "*")%char || (ch =? "/")%char || (ch =? "%")%char))%bool eqn:B10.
    { apply andb_prop in B10. destruct B10 as [B10 B11]. apply Nat.leb_le in B10. ts1.
      destruct (Ascii.eqb_spec ch "*") as [->|]; [bn BIN OL (CBin OMul) "*"%string 3%nat 2%nat lv k a sa OP; fre|].
      destruct (Ascii.eqb_spec ch "/") as [->|].
      { bn BIN OL (CBin OSDiv) "/"%string 3%nat 2%nat lv k a sa OP. intros x r -> K. destruct TS as [TS _]. cbn in TS. destruct TS as [_ TS].
        cbn in K. repeat (destruct K as [K|K]; [try discriminate; injection K as <-; eapply TS; eauto|]). exact K. }
      destruct (Ascii.eqb_spec ch "%") as [->|]; [|discriminate]. bn BIN OL (CBin OSRem) "%"%string 3%nat 2%nat lv k a sa OP; fre. }
    eapply twp_unread; [reflexivity|auto|]. apply RV; [reflexivity|]. apply stop_fall; auto.
  - intros t c. cbn [unary]. apply twp_ws. intros w t1 E L T. apply twp_rc; [intros [| |] _; first [apply twp_err|apply twp_fail]|].
    intros ch t2 E2 HC. subst t1.
    assert (UN : forall x w1 s1 w1' t3 k e, other_end ($x) -> layout w1 -> xE k e s1 -> rest s1 w1' t3 -> rest ($x ++ w1 ++ s1) w1' t3).
    { intros x w1 s1 w1' t3 k e O L1 HE R. rewrite app_assoc. apply rest_pre; auto using other_app, other_lay. eapply xE_ne; eauto. }
    destruct (Ascii.eqb_spec ch "!") as [->|].
    { eapply twp_use; [apply IHu|]. intros [v isL] t3 c3 (e1 & w1 & s1 & w1' & E1 & L1 & L1' & HE1 & TS1 & Y1). cbv beta iota.
      ts1. ts1. apply twp_ret. exists (ENot e1), w, ($"!" ++ w1 ++ s1), w1'. split; [subst; cbn; rapp; reflexivity|].
      split; [auto|]. split; [auto|]. split; [constructor; auto|]. split; [eapply UN; [apply chr_other; reflexivity|assumption|eassumption|assumption]|]. ybuild. }
    destruct (Ascii.eqb_spec ch "-") as [->|].
    { apply twp_rc; cbn [isCh].
      - intros e ->. unr. ts1. eapply twp_use; [apply IHu|]. intros [v isL] t3 c3 (e1 & w1 & s1 & w1' & E1 & L1 & L1' & HE1 & TS1 & Y1). cbv beta iota.
        ts1. ts1. apply twp_ret. exists (ENeg e1), w, ($"-" ++ w1 ++ s1), w1'.
        destruct w1; [|discriminate]. destruct s1; [|discriminate].
        split; [subst; cbn; cbn in E1; rewrite <- E1; reflexivity|].
        split; [auto|]. split; [auto|]. split; [constructor; auto; intros x r K; discriminate|]. split; [exfalso; eapply xE_ne; eauto|]. ybuild.
      - intros c2 t3 E3 HC3. destruct (Ascii.eqb_spec c2 "-") as [->|].
        + eapply twp_use; [apply IHu|]. intros [v isL] t4 c4 (e1 & w1 & s1 & w1' & E1 & L1 & L1' & HE1 & TS1 & Y1). cbv beta iota.
          destruct isL; [|apply twp_err]. ts1. apply twp_ret. exists (EPre OSub e1), w, ($"--" ++ w1 ++ s1), w1'. split; [subst; cbn; rapp; reflexivity|].
          split; [auto|]. split; [auto|]. split; [econstructor; eauto|]. split; [eapply UN; [apply (other_last _ ["-"%char] "-"%char); [apply IsIdent_false; reflexivity|reflexivity]|assumption|eassumption|assumption]|]. ybuild.
        + unr. eapply twp_unread; [exact E3|auto|]. eapply twp_use; [apply IHu|]. intros [v isL] t4 c4 (e1 & w1 & s1 & w1' & E1 & L1 & L1' & HE1 & TS1 & Y1). cbv beta iota.
          ts1. ts1. apply twp_ret. exists (ENeg e1), w, ($"-" ++ w1 ++ s1), w1'. split; [subst t t2; rewrite E1; cbn; rapp; reflexivity|].
          split; [auto|]. split; [auto|]. split; [constructor; auto|split; [eapply UN; [apply chr_other; reflexivity|assumption|eassumption|assumption]|ybuild]].
          apply apart_app with (w1' ++ t4). rewrite <- app_assoc, <- E1, E3. intros x r K. injection K as <- <-.
          cbn. intros K. repeat (destruct K as [K|K]; [try discriminate; congruence|]). exact K. }
    destruct (Ascii.eqb_spec ch "+") as [->|].
    { apply twp_rc; cbn [isCh]; [intros; apply twp_err|]. intros c2 t3 E3 HC3. destruct (Ascii.eqb_spec c2 "+") as [->|]; [|apply twp_err].
      eapply twp_use; [apply IHu|]. intros [v isL] t4 c4 (e1 & w1 & s1 & w1' & E1 & L1 & L1' & HE1 & TS1 & Y1). cbv beta iota.
      destruct isL; [|apply twp_err]. ts1. apply twp_ret. exists (EPre OAdd e1), w, ($"++" ++ w1 ++ s1), w1'. split; [subst; cbn; rapp; reflexivity|].
      split; [auto|]. split; [auto|]. split; [econstructor; eauto|]. split; [eapply UN; [apply (other_last _ ["+"%char] "+"%char); [apply IsIdent_false; reflexivity|reflexivity]|assumption|eassumption|assumption]|]. ybuild. }
    destruct (Ascii.eqb_spec ch "*") as [->|].
    { eapply twp_use; [apply IHu|]. intros [v isL] t3 c3 (e1 & w1 & s1 & w1' & E1 & L1 & L1' & HE1 & TS1 & Y1). cbv beta iota.
      ts1. ts1. apply twp_ret. exists (EDeref e1), w, ($"*" ++ w1 ++ s1), w1'. split; [subst; cbn; rapp; reflexivity|].
      split; [auto|]. split; [auto|]. split; [constructor; auto|]. split; [eapply UN; [apply chr_other; reflexivity|assumption|eassumption|assumption]|]. ybuild. }
    destruct (Ascii.eqb_spec ch "&") as [->|].
    { eapply twp_use; [apply IHu|]. intros [v isL] t3 c3 (e1 & w1 & s1 & w1' & E1 & L1 & L1' & HE1 & TS1 & Y1). cbv beta iota.
      destruct isL; [|apply twp_err]. ts1. apply twp_ret. exists (EAddr e1), w, ($"&" ++ w1 ++ s1), w1'. split; [subst; cbn; rapp; reflexivity|].
      split; [auto|]. split; [auto|]. split; [constructor; auto|]. split; [eapply UN; [apply chr_other; reflexivity|assumption|eassumption|assumption]|]. ybuild. }
    eapply twp_unread; [reflexivity|auto|]. eapply twp_mono; [apply IHp|].
    intros v t3 c3 (e1 & w1 & s1 & w1' & E1 & L1 & L1' & HE1 & TS1 & Y1).
    exists e1, (w ++ w1), s1, w1'. split; [subst t; rewrite E1; rapp; reflexivity|]. split; [auto using layout_cat|].
    split; [auto|]. split; [eapply xE_up; eauto|]. auto.
  - intros t c. cbn [postfix]. eapply twp_use; [apply IHpr|].
    intros [lhs isL] t1 c1 (e & w & s & w' & E & L1 & L2 & HO & NJ & Y). cbv beta iota.
    eapply twp_mono; [eapply IHpl; eauto|]. intros v t2 c2 (e1 & s1 & w1 & E1 & L3 & HE & TS & Y1).
    exists e1, w, s1, w1. split; [subst t; rewrite E1; reflexivity|]. auto 8.
  - intros lhs isL a sa w0 c0 t c HO NJ L0 Y. cbn [postfixLoop]. apply twp_ws. intros w t1 E L T.
    assert (OP1 : (xE 1 a sa /\ (forall x, a = EVar x -> not_starting (eq "("%char) t1)) \/
       (exists x, a = ECallee x /\ ident x /\ sa = $x /\ starts t1 "(" /\ w = [])).
    { destruct HO as [[H1 H2]|(x & -> & HI & -> & r & ->)].
      - left. split; [auto|]. intros x Ex. destruct (H2 x Ex) as [TS NS]. destruct (layout_token _ _ _ E L TS) as [-> <-]. exact NS.
      - right. exists x. assert (TS : token_start ("("%char :: r)).
        { cbn. split; [|discriminate]. intros H. cbn in H. repeat (destruct H as [H|H]; [discriminate|]). exact H. }
        destruct (layout_token _ _ _ E L TS) as [-> <-]. split; [auto|]. split; [auto|]. split; [auto|]. split; [exists r; auto|auto]. }
    clear HO.
    assert (DONE : forall t', t' = t1 -> not_starting (fun c => c = "("%char \/ c = "["%char) t1 -> (forall c r, t1 = c :: c :: r -> c <> "+"%char /\ c <> "-"%char) -> twp (ret (lhs, isL)) (pPost c0 (sa ++ w0 ++ t)) t' c).
    { intros t' -> NS NP. apply twp_ret. destruct OP1 as [[H1 H2]|(x & _ & _ & _ & [r ->] & _)]; [|destruct NS; auto].
      exists a, sa, (w0 ++ w). split; [subst t; rapp; reflexivity|]. split; [auto using layout_cat|]. split; [auto|]. split; [|auto].
      split; [auto|]. split; [auto|]. split; [auto|]. rewrite <- app_assoc, <- E. exact NJ. }
    apply twp_rc; [intros [| |] ->; try apply twp_fail; apply DONE; [auto|exact I|discriminate]|].
    intros ch t2 E2 HC. subst t1.
    destruct (Ascii.eqb_spec ch "[") as [->|N1].
    { destruct OP1 as [[H1 _]|(x & _ & _ & _ & [r K] & _)]; [|discriminate].
      do 2 ts1. eapply twp_use; [apply IHe; lia|].
      intros vi t3 c3 (e1 & w1 & s1 & w1' & E1 & L1 & L1' & HE1 & TS1 & ST1 & Y1). cbn beta.
      apply twp_expect. intros t4 E4. ts1. getR. eapply twp_mono.
      - eapply (IHpl _ true (EIdx a e1) (sa ++ (w0 ++ w) ++ $"[" ++ w1 ++ s1 ++ w1' ++ $"]") [] c0 t4).
        + left. split; [constructor; auto using layout_cat|]. discriminate.
        + eapply (joins_other _ (sa ++ (w0 ++ w) ++ $"[" ++ w1 ++ s1 ++ w1') "]"%char); [rapp; reflexivity|apply IsIdent_false; reflexivity].
        + constructor.
        + ybuild.
      - intros vv t5 c5 (e2 & s2 & w2 & E5 & R). exists e2, s2, w2. split; [|exact R]. rewrite <- E5. subst. cbn. rapp. reflexivity. }
    destruct (Ascii.eqb_spec ch "(") as [->|N2].
    { ts1. eapply twp_use; [apply IHa|]. intros vs t3 c3 (es & s & ws & E3 & HA & EV & Y3). cbn [app] in EV. subst vs. cbn beta.
      ts1. eapply twp_mono.
      - eapply (IHpl _ false (ECall a es) (sa ++ (w0 ++ w) ++ $"(" ++ s) [] c0 t3).
        + left. split; [|discriminate]. destruct OP1 as [[H1 H2]|(x & -> & HI & -> & _ & _)].
          * apply xE_call; auto using layout_cat. intros x ->. apply (H2 x eq_refl). reflexivity.
          * apply xE_callx; auto using layout_cat.
        + destruct (proj2 xE_ne _ _ HA) as [p Ep]. apply (joins_other _ (sa ++ (w0 ++ w) ++ $"(" ++ p) ")"%char); [rewrite Ep; rapp; reflexivity|apply IsIdent_false; reflexivity].
        + constructor.
        + ybuild.
      - intros vv t5 c5 (e2 & s2 & w2 & E5 & R). exists e2, s2, w2. split; [|exact R]. rewrite <- E5. subst. cbn. rapp. reflexivity. }
    assert (NP : not_starting (fun c => c = "("%char \/ c = "["%char) (ch :: t2)) by (intros [K|K]; congruence).
    assert (NPS : ~ starts (ch :: t2) "(") by (intros [r K]; injection K; intros; congruence).
    destruct ((ch =? "+")%char || (ch =? "-")%char)%bool eqn:B.
    { apply orb_prop in B. assert (CH : ch = "+"%char \/ ch = "-"%char) by (rewrite !Ascii.eqb_eq in B; auto). clear B.
      apply twp_rc; cbn [isCh].
      - intros e ->. unr. ts1. eapply twp_unread; [reflexivity|auto|]. apply DONE; auto. discriminate.
      - intros c2 t3 E3 HC3. destruct (Ascii.eqb_spec c2 ch) as [->|].
        + destruct isL; [|apply twp_err]. ts1. destruct OP1 as [[H1 _]|(x & _ & _ & _ & HS & _)]; [|contradiction].
          eapply twp_mono.
          * eapply (IHpl _ false (EPost (if (ch =? "+")%char then OAdd else OSub) a) (sa ++ (w0 ++ w) ++ [ch; ch]) [] c0 t3).
            -- left. split; [|discriminate]. destruct CH as [->| ->].
               ++ apply (xE_post OAdd "++"); auto using layout_cat.
               ++ apply (xE_post OSub "--"); auto using layout_cat.
            -- apply (joins_other _ (sa ++ (w0 ++ w) ++ [ch]) ch); [rapp; reflexivity|]. apply IsIdent_false. destruct CH as [->| ->]; reflexivity.
            -- constructor.
            -- ybuild.
          * intros vv t5 c5 (e2 & s2 & w2 & E5 & R). exists e2, s2, w2. split; [|exact R]. rewrite <- E5. subst. cbn. rapp. reflexivity.
        + unr. eapply twp_unread; [exact E3|auto|]. eapply twp_unread; [reflexivity|auto|]. apply DONE; auto. intros c9 r9 K. subst t2. injection K as <- <- _. congruence. }
    apply orb_false_iff in B. rewrite !Ascii.eqb_neq in B.
    eapply twp_unread; [reflexivity|auto|]. apply DONE; auto. intros c9 r9 K. injection K as <- _. tauto.
  - intros acc t c. cbn [callArgs]. apply twp_read. intros ch t1 E HC. destruct (Ascii.eqb_spec ch ")") as [->|].
    { apply twp_ret. exists ENil, ($")"), []. rewrite app_nil_r. split; [exact E|]. split; [constructor|]. split; [auto|]. ybuild. }
    eapply twp_unread; [exact E|auto|]. eapply twp_use; [apply IHe; lia|].
    intros v t2 c2 (e1 & w1 & s1 & w1' & E1 & L1 & L1' & HE1 & TS1 & ST1 & Y1). cbn beta. getR.
    apply twp_ws. intros w t3 E3 L3 T3. apply twp_read. intros c3 t4 E4 HC4. destruct (Ascii.eqb_spec c3 ")") as [->|].
    { apply twp_ret. exists (ECons e1 ENil), (w1 ++ s1 ++ (w1' ++ w) ++ $")"), [v]. split; [rewrite E1; subst; cbn; rapp; reflexivity|].
      split; [constructor; auto using layout_cat|]. split; [auto|]. ybuild. }
    destruct (Ascii.eqb_spec c3 ",") as [->|]; [|apply twp_err].
    eapply twp_mono; [apply IHa|]. intros vs t5 c5 (es & s & ws & E5 & HA & -> & Y5).
    exists (ECons e1 es), (w1 ++ s1 ++ (w1' ++ w) ++ $"," ++ s), (v :: ws). split; [rewrite E1; subst; cbn; rapp; reflexivity|].
    split; [constructor; auto using layout_cat|]. split; [rewrite <- app_assoc; reflexivity|]. ybuild.
  - intros t c. cbn [primary]. apply twp_ws. intros w t1 E L T. apply twp_rc; [intros [| |] _; first [apply twp_err|apply twp_fail]|].
    intros ch t2 E2 HC.
    assert (O0 : forall e s t', xE 0 e s -> (forall x, e <> EVar x) -> operand e s t').
    { intros e s t' H1 H2. left. split; [apply xE_up with 0%nat; [auto|lia]|]. intros x Ex. exfalso. eapply H2; eauto. }
    destruct (Ascii.eqb_spec ch QUOTE) as [->|].
    { apply twp_char. intros s z t3 E3 HZ. apply twp_ret. exists (EInt z), w, (QUOTE :: s), []. split; [subst; reflexivity|].
      split; [auto|]. split; [constructor|]. split; [apply O0; [constructor 2; auto|discriminate]|]. split; [eapply joins_chr; eauto|]. ybuild. }
    destruct (Ascii.eqb_spec ch DQUOTE) as [->|].
    { apply twp_string. intros s x t3 E3 HS. do 3 ts1. apply twp_ret. exists (EStr x), w, (DQUOTE :: s), []. split; [subst; reflexivity|].
      split; [auto|]. split; [constructor|]. split; [apply O0; [constructor; auto|discriminate]|]. split; [eapply joins_str; eauto|]. ybuild. }
    destruct (Ascii.eqb_spec ch "(") as [->|].
    { eapply twp_use; [apply IHe; lia|]. intros v t3 c3 (e1 & w1 & s1 & w1' & E1 & L1 & L1' & HE1 & TS1 & ST1 & Y1). cbn beta. getR.
      apply twp_expect. intros t4 E4. apply twp_ret. exists (EParen e1), w, ($"(" ++ w1 ++ s1 ++ w1' ++ $")"), []. split; [subst; cbn; rapp; reflexivity|].
      split; [auto|]. split; [constructor|]. split; [apply O0; [constructor; auto|discriminate]|].
      split; [apply (joins_other _ ($"(" ++ w1 ++ s1 ++ w1') ")"%char); [rapp; reflexivity|apply IsIdent_false; reflexivity]|]. ybuild. }
    destruct (IsDigit ch) eqn:D.
    { eapply twp_unread; [exact E2|auto|]. apply twp_number. intros w1 ds z t3 E3 L3 HN ND TD.
      apply IsDigit_digit in D. destruct (layout_token _ _ _ E3 L3 T) as [-> _].
      apply twp_ret. exists (EInt z), w, ds, []. split; [subst t; rewrite E3; reflexivity|].
      destruct HN as [HN|[-> ->]]; [|exfalso; cbn in E3; subst t1; rewrite <- E3 in ND; apply ND; exact D].
      split; [auto|]. split; [constructor|]. split; [apply O0; [constructor; auto|discriminate]|]. split; [|ybuild]. eapply joins_num; eauto. }
    destruct (IsLetter ch) eqn:LT; [|apply twp_err].
    eapply twp_unread; [exact E2|auto|]. apply twp_ident. intros w1 x t3 E3 L3 HN NS TD.
    apply IsLetter_letter in LT. destruct (layout_token _ _ _ E3 L3 T) as [-> _].
    assert (HI : ident x).
    { apply letter_ident; auto. destruct ($x) as [|c1 r1] eqn:EX.
      - exfalso. cbn in E3. subst t1. rewrite <- E3 in NS. apply NS. left. exact LT.
      - cbn in E3. exists c1, r1. split; [auto|]. subst t1. injection E3 as <- _. exact LT. }
    eapply twp_mono; [apply primaryIdent_text; auto|]. intros v t4 c4 (e & w' & E4 & L4 & HO & Y).
    exists e, w, ($x), w'. split; [subst t; rewrite E3; subst t3; reflexivity|]. split; [auto|]. split; [auto|]. split; [auto|]. split; [|auto].
    apply joins_ident; auto. rewrite <- E4. exact NS.
Qed.
End T.
