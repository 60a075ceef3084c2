(** * MemFacts: new objects, parameters and automatic variables *)
From Coq Require Import List Ascii String ZArith Bool Lia.
From Verif Require Import Base IR Builder Syntax ParseGen SpecSem SemFacts.
Import ListNotations.
Open Scope Z_scope.

(** The [n] bytes at [a] are apart from the [k] bytes at [b]. *)
Definition apart (a n b k : Z) : Prop := b + k <= a \/ a + n <= b.
(** No word of [m] lies in the [n] bytes at [a]. *)
Definition fresh (m : memory) (a n : Z) : Prop := forall b, word_ok m b = true -> apart a n b 8.
(** New objects are put at aligned addresses where nothing else is. *)
Definition sane (place : memory -> Z -> option Z) : Prop :=
  forall m n a, place m n = Some a -> a mod 8 = 0 /\ fresh m a n.
(** The words of [m] are unchanged in [m']. *)
Definition kept (m m' : memory) : Prop := forall b, word_ok m b = true -> word_ok m' b = true /\ load m' b = load m b.
Lemma kept_refl m : kept m m. Proof. intros b. auto. Qed.
Lemma kept_trans m1 m2 m3 : kept m1 m2 -> kept m2 m3 -> kept m1 m3.
Proof. intros A B b K. destruct (A b K) as [K1 E1]. destruct (B b K1) as [K2 E2]. split; auto. congruence. Qed.

Lemma word_of_ext f g : forall n a, (forall x, a <= x < a + Z.of_nat n -> f x = g x) -> word_of f a n = word_of g a n.
Proof.
  induction n as [|n IH]; intros a K; cbn [word_of]; auto. rewrite K by lia. rewrite (IH (a + 1)); auto. intros x L. apply K. lia.
Qed.
Lemma covers_in a n b k : 0 <= n -> a <= b -> b + k <= a + n -> covers b k (a, n) = true.
Proof. intros. unfold covers. cbn. apply andb_true_iff. split; apply Z.leb_le; lia. Qed.
Section Alloc.
Variable place : memory -> Z -> option Z.
Hypothesis S : sane place.
Lemma alloc_facts m n a m' : alloc place m n = Some (a, m') ->
  a mod 8 = 0 /\ fresh m a n /\ kept m m' /\
  (forall i, 0 <= i -> 8 * i + 8 <= n -> word_ok m' (a + 8 * i) = true).
Proof.
  unfold alloc. destruct (place m n) as [b|] eqn:E; [|discriminate]. intros K. injection K as -> <-.
  destruct (S _ _ _ E) as [A F]. split; auto. split; auto. split.
  - intros b K. assert (K' : word_ok (mkMem (fun x => if (a <=? x) && (x <? a + n) then None else m_byte m x) ((a, n) :: m_stack m) (m_static m)) b = true).
    { unfold word_ok, accessible in *. cbn [m_stack m_static app existsb]. apply andb_true_iff in K. destruct K as [K1 K2]. rewrite K1, K2, orb_true_r. reflexivity. }
    split; [exact K'|]. unfold load. rewrite K, K'. cbn [m_byte].
    rewrite (word_of_ext _ (m_byte m)); [reflexivity|]. intros x L. destruct (F b K) as [D|D];
      destruct (Z.leb_spec a x), (Z.ltb_spec x (a + n)); cbn; first [reflexivity|lia].
  - intros i L1 L2. unfold word_ok, accessible. cbn [m_stack m_static app existsb]. rewrite covers_in by lia. cbn [orb]. rewrite andb_true_r.
    apply Z.eqb_eq. rewrite (Z.mul_comm 8 i), Z.mod_add by lia. exact A.
Qed.
End Alloc.
Lemma store_facts m a z m' : store m a z = Some m' ->
  word_ok m a = true /\ (forall b, word_ok m' b = word_ok m b) /\ load m' a = Some (wrap64 z) /\ (forall b, apart a 8 b 8 -> load m' b = load m b).
Proof.
  intros E. split; [unfold store in E; destruct (word_ok m a); congruence|]. split.
  - unfold store in E. destruct (word_ok m a); [|discriminate]. injection E as <-. reflexivity.
  - split; [eapply load_store; eauto|]. intros b A. eapply load_store_other; [exact E|]. unfold apart in A. lia.
Qed.
Lemma store_kept m0 m a z m' : store m a z = Some m' -> kept m0 m -> fresh m0 a 8 -> kept m0 m'.
Proof.
  intros E K F b B. destruct (K b B) as [B1 E1]. destruct (store_facts _ _ _ _ E) as (_ & K1 & _ & K2). split; [rewrite K1; auto|].
  rewrite K2; [exact E1|]. apply F. exact B.
Qed.
Lemma store_word m a z : word_ok m a = true -> exists m', store m a z = Some m'.
Proof. intros E. unfold store. rewrite E. eauto. Qed.
Lemma fresh_kept m m' a n : kept m m' -> fresh m' a n -> fresh m a n.
Proof. intros K F b B. apply F. apply K. exact B. Qed.
Lemma apart_sym a n b k : apart a n b k -> apart b k a n.
Proof. unfold apart. lia. Qed.

Section Entry.
Context {W : Type}.
Variable H : host W.
Hypothesis S : sane (h_place H).
(** A new word with a value. *)
Lemma new_word z (m : memory) (w : W) a m2 : alloc (h_place H) m 8 = Some (a, m2) ->
  exists m', store m2 a z = Some m' /\ fresh m a 8 /\ kept m m' /\ word_ok m' a = true /\ load m' a = Some (wrap64 z).
Proof.
  intros E. destruct (alloc_facts _ S _ _ _ _ E) as (A & F & K & N). assert (B : word_ok m2 a = true).
  { specialize (N 0 ltac:(lia) ltac:(lia)). rewrite Z.mul_0_r, Z.add_0_r in N. exact N. }
  destruct (store_word m2 a z B) as [m' E2]. exists m'. split; auto. split; auto. split; [eapply store_kept; eauto|].
  destruct (store_facts _ _ _ _ E2) as (_ & K1 & K2 & _). split; [rewrite K1; auto|exact K2].
Qed.
Theorem parameters_facts : forall ps args r m w r' m' (w' : W), NoDup ps -> Forall int64 args ->
  parameters H ps args r m w = Val r' m' w' ->
  w' = w /\ (List.length ps <= List.length args)%nat /\ kept m m' /\ (forall x, ~ In x ps -> r' x = r x) /\
  (forall i p v, nth_error ps i = Some p -> nth_error args i = Some v ->
     exists a, r' p = Some a /\ fresh m a 8 /\ word_ok m' a = true /\ load m' a = Some v) /\
  (forall p q a b, In p ps -> In q ps -> p <> q -> r' p = Some a -> r' q = Some b -> apart a 8 b 8).
Proof.
  induction ps as [|p ps IH]; intros args r m w r' m' w' ND FA E.
  - cbn in E. injection E as <- <- <-. split; [reflexivity|]. split; [cbn; lia|]. split; [apply kept_refl|]. split; [auto|]. split; [intros [|i]; discriminate|intros p q a b []].
  - destruct args as [|z args]; [discriminate|]. inversion ND; subst. inversion FA; subst.
    cbn [parameters] in E. unfold andthen, alloc_, store_ in E.
    destruct (alloc (h_place H) m 8) as [[a m2]|] eqn:EA; [|discriminate].
    destruct (new_word z m w a m2 EA) as (m3 & E3 & F & K & WK & L). rewrite E3 in E.
    destruct (IH args (put p a r) m3 w r' m' w' H3 H5 E) as (-> & LE & K2 & R & V & D).
    assert (RP : r' p = Some a) by (rewrite R by auto; unfold put; rewrite String.eqb_refl; reflexivity).
    destruct (K2 a WK) as [WK' L']. rewrite L, wrap64_id in L' by auto.
    split; [reflexivity|]. split; [cbn; lia|]. split; [eapply kept_trans; eauto|].
    split; [intros x N; rewrite R by (intros X; apply N; right; auto); unfold put; destruct (String.eqb_spec x p); [subst; destruct N; left; auto|reflexivity]|].
    assert (Q : forall q b, In q ps -> r' q = Some b -> apart b 8 a 8).
    { intros q b Hq Eb. apply In_nth_error in Hq. destruct Hq as [i Hi]. assert (X : nth_error args i <> None).
      { apply nth_error_Some. assert (Y : (i < List.length ps)%nat) by (apply nth_error_Some; congruence). lia. }
      destruct (nth_error args i) as [v|] eqn:Ev; [|congruence]. destruct (V i q v Hi Ev) as (b' & Eb' & Fb & _). rewrite Eb in Eb'. injection Eb' as <-. apply Fb. exact WK. }
    split.
    + intros [|i] p' v Ep Ev; cbn in Ep, Ev.
      * injection Ep as <-. injection Ev as <-. exists a. auto.
      * destruct (V i p' v Ep Ev) as (b & Eb & Fb & Wb & Lb). exists b. split; auto. split; auto. eapply fresh_kept; eauto.
    + intros x y b c [<-|Hx] [<-|Hy] N Eb Ec; try congruence.
      * rewrite RP in Eb. injection Eb as <-. apply apart_sym. eauto.
      * rewrite RP in Ec. injection Ec as <-. eauto.
      * eauto.
Qed.
(** The parameters get their words if there is room. *)
Theorem parameters_room : (forall m, h_place H m 8 <> None) -> forall ps args r m w, (List.length ps <= List.length args)%nat ->
  exists r' m', parameters H ps args r m w = Val r' m' w.
Proof.
  intros R. induction ps as [|p ps IH]; intros args r m w L; [exists r, m; reflexivity|]. destruct args as [|z args]; [cbn in L; lia|].
  cbn [parameters]. unfold andthen, alloc_, store_. destruct (alloc (h_place H) m 8) as [[a m2]|] eqn:EA.
  - destruct (new_word z m w a m2 EA) as (m3 & E3 & _). rewrite E3. apply IH. cbn in L. lia.
  - unfold alloc in EA. destruct (h_place H m 8) eqn:E; [discriminate|]. destruct (R m E).
Qed.
(** The number of words of an automatic variable: [-1] marks a plain one, else
    there are its own word and its elements, of which there is at least one. *)
Definition words (n : Z) : Z := if n =? -1 then 1 else Z.max n 1 + 1.
(** The variable [x] declared with [n] is new storage at [a]: its own word is 0,
    or the address of its first element. *)
Definition made (n : Z) (m m' : memory) (a : Z) : Prop :=
  -1 <= n /\ fresh m a (8 * words n) /\ (forall i, 0 <= i < words n -> word_ok m' (a + 8 * i) = true) /\ load m' a = Some (if n =? -1 then 0 else wrap64 (a + 8)).
Lemma words_pos n : 1 <= words n. Proof. unfold words. destruct (n =? -1); lia. Qed.
Lemma made_kept n m m' m'' a : made n m m' a -> kept m' m'' -> made n m m'' a.
Proof.
  intros (A & B & D & E) K. split; auto. split; auto. split; [intros i L; apply K; auto|].
  rewrite <- E. apply K. pose proof (words_pos n). specialize (D 0 ltac:(lia)). rewrite Z.mul_0_r, Z.add_0_r in D. exact D.
Qed.
Theorem automatic_facts x n r m w r' m' (w' : W) : automatic H x n r m w = Val r' m' w' ->
  w' = w /\ kept m m' /\ exists a, r' = put x a r /\ made n m m' a.
Proof.
  unfold automatic, made, words. destruct (Z.eqb_spec n (-1)) as [->|N].
  - unfold andthen, alloc_, store_, done. destruct (alloc (h_place H) m 8) as [[a m2]|] eqn:EA; [|discriminate].
    destruct (new_word 0 m w a m2 EA) as (m3 & E3 & F & K & WK & L). rewrite E3. intros E. injection E as <- <- <-.
    split; auto. split; auto. exists a. split; auto. split; [lia|]. split; [exact F|]. split; [|exact L].
    intros i Li. replace (a + 8 * i) with a by lia. exact WK.
  - destruct (Z.ltb_spec n 0); [discriminate|]. cbv zeta. unfold andthen, alloc_, store_, done.
    assert (EL : (if n =? 0 then 1 else n) = Z.max n 1) by (destruct (Z.eqb_spec n 0); lia). rewrite EL. clear EL.
    destruct (alloc (h_place H) m (8 * (Z.max n 1 + 1))) as [[a m2]|] eqn:EA; [|discriminate].
    destruct (alloc_facts _ S _ _ _ _ EA) as (A & F & K & WK).
    destruct (store m2 a (a + 8)) as [m3|] eqn:E3; [|discriminate]. intros E. injection E as <- <- <-.
    destruct (store_facts _ _ _ _ E3) as (_ & K1 & K2 & _).
    assert (F8 : fresh m a 8) by (intros b B; specialize (F b B); unfold apart in *; lia).
    split; auto. split; [eapply store_kept; eauto|]. exists a. split; auto. split; [lia|]. split; auto. split; auto.
    intros i L. rewrite K1. apply WK; lia.
Qed.
(** A list of declarators. *)
Theorem automatics_facts : forall l r m w r' m' (w' : W), NoDup (map fst l) -> automatics H l r m w = Val r' m' w' ->
  w' = w /\ kept m m' /\ (forall x, ~ In x (map fst l) -> r' x = r x) /\
  (forall x n, In (x, n) l -> exists a, r' x = Some a /\ made n m m' a) /\
  (forall x n a y k b, In (x, n) l -> In (y, k) l -> x <> y -> r' x = Some a -> r' y = Some b ->
     forall i j, 0 <= i < words n -> 0 <= j < words k -> apart (a + 8 * i) 8 (b + 8 * j) 8).
Proof.
  induction l as [|[x n] l IH]; intros r m w r' m' w' ND E.
  - cbn in E. injection E as <- <- <-. split; [reflexivity|]. split; [apply kept_refl|]. split; [auto|]. split; [intros x n []|intros x n a y k b []].
  - inversion ND; subst. cbn [automatics] in E. unfold andthen in E. destruct (automatic H x n r m w) as [r1 m1 w1|z w1| |] eqn:E1; try discriminate.
    apply automatic_facts in E1. destruct E1 as (-> & K1 & a & -> & D). destruct (IH _ _ _ _ _ _ H3 E) as (-> & K2 & R & V & Q).
    assert (RX : r' x = Some a) by (rewrite R by auto; unfold put; rewrite String.eqb_refl; reflexivity).
    assert (QX : forall y k b i j, In (y, k) l -> r' y = Some b -> 0 <= i < words n -> 0 <= j < words k -> apart (a + 8 * i) 8 (b + 8 * j) 8).
    { intros y k b i j Hy Eb Li Lj. destruct (V y k Hy) as (b' & Eb' & _ & F & _). rewrite Eb in Eb'. injection Eb' as <-.
      destruct D as (_ & _ & WK & _). specialize (F _ (WK i Li)). unfold apart in *. lia. }
    split; auto. split; [eapply kept_trans; eauto|].
    split; [intros y N; rewrite R by (intros X; apply N; right; auto); unfold put; destruct (String.eqb_spec y x); [subst; destruct N; left; auto|reflexivity]|].
    split.
    + intros y k [E2|Hy].
      * injection E2 as <- <-. exists a. split; auto. eapply made_kept; eauto.
      * destruct (V y k Hy) as (b & Eb & A & B & D' & E'). exists b. split; auto. split; auto. split; [eapply fresh_kept; eauto|auto].
    + intros y k b y' k' b' [E2|Hy] [E3|Hy'] N Eb Eb' i j Li Lj; try congruence.
      * injection E2 as <- <-. assert (b = a) by congruence. subst b. eauto.
      * injection E3 as <- <-. assert (b' = a) by congruence. subst b'. apply apart_sym. eauto.
      * eauto.
Qed.
End Entry.
