(** * Cells: reasoning about programs whose variables are known words
    Used for whole programs (PropsExamples.v): the words of the variables, apart
    from each other, and the rest of memory as it was. *)
From Coq Require Import List Ascii String ZArith Bool Lia.
From Verif Require Import Base IR Builder Expr Syntax SpecSem SemFacts MemFacts.
Import ListNotations.
Open Scope Z_scope.

Definition byte_map := Z -> option Z.
(** The objects of [m] are [st] and [su], the words [ws] hold the given values
    and lie apart, and elsewhere memory holds the bytes [g]. *)
Record cells (st su : list (Z * Z)) (g : byte_map) (ws : list (Z * Z)) (m : memory) : Prop := {
  ce_stack : m_stack m = st;
  ce_static : m_static m = su;
  ce_word : forall i a v, nth_error ws i = Some (a, v) -> load m a = Some v;
  ce_apart : forall i j a v b u, nth_error ws i = Some (a, v) -> nth_error ws j = Some (b, u) -> i <> j -> apart a 8 b 8;
  ce_else : forall x, (forall a v, In (a, v) ws -> ~ a <= x < a + 8) -> m_byte m x = g x
}.
Fixpoint change (i : nat) (u : Z) (ws : list (Z * Z)) : list (Z * Z) :=
  match ws, i with
  | [], _ => []
  | (a, _) :: r, O => (a, u) :: r
  | p :: r, S i' => p :: change i' u r
  end.
Lemma nth_change ws : forall i u j, nth_error (change i u ws) j =
  match nth_error ws j with Some (a, v) => Some (a, if Nat.eqb i j then u else v) | None => None end.
Proof.
  induction ws as [|[a v] ws IH]; intros i u j; [destruct i, j; reflexivity|]. destruct i, j; cbn [change nth_error Nat.eqb]; auto.
  destruct (nth_error ws j) as [[b w]|]; reflexivity.
Qed.
Lemma change_in ws i u a v : In (a, v) ws -> exists v', In (a, v') (change i u ws).
Proof.
  intros HI. apply In_nth_error in HI. destruct HI as [j E]. pose proof (nth_change ws i u j) as K. rewrite E in K.
  apply nth_error_In in K. eauto.
Qed.
Lemma cells_store st su g ws m i a v u : cells st su g ws m -> nth_error ws i = Some (a, v) -> - 2 ^ 63 <= u < 2 ^ 63 ->
  exists m', store m a u = Some m' /\ cells st su g (change i u ws) m'.
Proof.
  intros [CS CT CW CA CE] E R. assert (WO : word_ok m a = true). { specialize (CW i a v E). unfold load in CW. destruct (word_ok m a); congruence. }
  destruct (store_word m a u WO) as [m' ES]. exists m'. split; [exact ES|].
  assert (X : m_stack m' = m_stack m /\ m_static m' = m_static m /\ forall x, ~ a <= x < a + 8 -> m_byte m' x = m_byte m x).
  { unfold store in ES. rewrite WO in ES. injection ES as <-. cbn [m_stack m_static m_byte]. repeat split; auto. intros x N.
    destruct (Z.leb_spec a x), (Z.ltb_spec x (a + 8)); cbn [andb]; auto. lia. }
  destruct X as (X1 & X2 & X3). constructor; try congruence.
  - intros j b w K. rewrite nth_change in K. destruct (nth_error ws j) as [[b' v']|] eqn:EJ; [|discriminate]. injection K as -> <-.
    destruct (Nat.eqb_spec i j) as [<-|N].
    + rewrite E in EJ. injection EJ as -> <-. rewrite (load_store _ _ _ _ ES), wrap64_id by lia. reflexivity.
    + rewrite (load_store_other _ _ _ _ _ ES); [eapply CW; eauto|]. pose proof (CA i j a v b v' E EJ N) as D. unfold apart in D. lia.
  - intros j1 j2 b w c z K1 K2 N. rewrite nth_change in K1, K2. destruct (nth_error ws j1) as [[b' v1]|] eqn:E1; [|discriminate].
    destruct (nth_error ws j2) as [[c' v2]|] eqn:E2; [|discriminate]. injection K1 as -> _. injection K2 as -> _. exact (CA j1 j2 b v1 c v2 E1 E2 N).
  - intros x K. rewrite X3; [apply CE; intros b w HI|].
    + destruct (change_in ws i u b w HI) as [w' HI']. eapply K; eauto.
    + apply nth_error_In in E. destruct (change_in ws i u a v E) as [w' HI']. eapply K; eauto.
Qed.

(** There is room for [k] more words, wherever the host puts them: at aligned
    addresses, apart from the objects there are. *)
Fixpoint room (place : memory -> Z -> option Z) (k : nat) (st su : list (Z * Z)) : Prop :=
  match k with
  | O => True
  | S k' => exists a, (forall m, m_stack m = st -> m_static m = su -> place m 8 = Some a) /\ a mod 8 = 0 /\
      (forall b n, In (b, n) (st ++ su) -> apart a 8 b n) /\ room place k' ((a, 8) :: st) su
  end.
Lemma accessible_apart a n m b k : (forall c l, In (c, l) (m_stack m ++ m_static m) -> apart a n c l) -> accessible m b k = true -> apart a n b k.
Proof.
  intros F A. unfold accessible in A. apply existsb_exists in A. destruct A as ([c l] & HI & CV). specialize (F c l HI).
  unfold covers in CV. cbn [fst snd] in CV. apply andb_true_iff in CV. destruct CV as [C1 C2]. apply Z.leb_le in C1, C2. unfold apart in *. lia.
Qed.
Lemma load_accessible m a v : load m a = Some v -> accessible m a 8 = true /\ a mod 8 = 0.
Proof.
  unfold load, word_ok. destruct (Z.eqb_spec (a mod 8) 0); cbn [andb]; [|discriminate]. destruct (accessible m a 8); [auto|discriminate].
Qed.
Lemma accessible_objs m m' b k : m_stack m' = m_stack m -> m_static m' = m_static m -> accessible m' b k = accessible m b k.
Proof. intros E1 E2. unfold accessible. rewrite E1, E2. reflexivity. Qed.
Section New.
Context {W : Type}.
Variable H : host W.
(** A new word holding [z]. *)
Lemma cells_new k st su g ws m z : room (h_place H) (S k) st su -> cells st su g ws m -> - 2 ^ 63 <= z < 2 ^ 63 ->
  exists a m1 m', alloc (h_place H) m 8 = Some (a, m1) /\ store m1 a z = Some m' /\ cells ((a, 8) :: st) su g ((a, z) :: ws) m' /\
    (forall b n, accessible m b n = true -> apart a 8 b n) /\ room (h_place H) k ((a, 8) :: st) su.
Proof.
  intros (a & PL & AL & AP & RM) [CS CT CW CA CE] R. unfold alloc. rewrite (PL m CS CT).
  set (m1 := mkMem _ _ _). assert (WO : word_ok m1 a = true).
  { unfold word_ok, accessible, m1. cbn [m_stack m_static app existsb]. rewrite covers_in by lia. rewrite AL. reflexivity. }
  destruct (store_word m1 a z WO) as [m' ES]. exists a, m1, m'. split; [reflexivity|]. split; [exact ES|].
  assert (FA : forall b n, accessible m b n = true -> apart a 8 b n).
  { intros b n A. eapply accessible_apart; [|exact A]. rewrite CS, CT. exact AP. }
  split; [|split; [exact FA|exact RM]].
  assert (X : m_stack m' = (a, 8) :: st /\ m_static m' = su /\ forall x, ~ a <= x < a + 8 -> m_byte m' x = m_byte m x).
  { unfold store in ES. rewrite WO in ES. injection ES as <-. unfold m1. cbn [m_stack m_static m_byte]. split; [congruence|]. split; [congruence|]. intros x N.
    destruct (Z.leb_spec a x), (Z.ltb_spec x (a + 8)); cbn [andb]; auto. lia. }
  destruct X as (X1 & X2 & X3). constructor; auto.
  - intros [|i] b w K; cbn [nth_error] in K.
    + injection K as <- <-. rewrite (load_store _ _ _ _ ES), wrap64_id by lia. reflexivity.
    + pose proof (CW i b w K) as LD. destruct (load_accessible _ _ _ LD) as [A8 M8]. specialize (FA b 8 A8). unfold load in LD |- *.
      assert (A : word_ok m' b = true). { unfold word_ok, accessible. rewrite X1, X2. cbn [app existsb]. unfold accessible in A8. rewrite CS, CT in A8. rewrite A8, orb_true_r, M8. reflexivity. }
      rewrite A. destruct (word_ok m b); [|discriminate]. rewrite (word_of_ext (m_byte m') (m_byte m)); [exact LD|]. intros x L. apply X3. unfold apart in FA. lia.
  - intros [|i] [|j] b v c u E1 E2 N; cbn [nth_error] in E1, E2; try congruence.
    + injection E1 as <- _. apply FA. exact (proj1 (load_accessible _ _ _ (CW j c u E2))).
    + injection E2 as <- _. apply apart_sym. apply FA. exact (proj1 (load_accessible _ _ _ (CW i b v E1))).
    + eapply CA; eauto.
  - intros x K. rewrite X3; [apply CE; intros b v HI; apply (K b v); right; exact HI|apply (K a z); left; reflexivity].
Qed.
(** Plain automatic variables. *)
Lemma new_auto x (r : env) : forall k st su g ws m w, room (h_place H) (S k) st su -> cells st su g ws m ->
  exists a m', automatic H x (-1) r m w = Val (put x a r) m' w /\ cells ((a, 8) :: st) su g ((a, 0) :: ws) m' /\
    (forall b n, accessible m b n = true -> apart a 8 b n) /\ room (h_place H) k ((a, 8) :: st) su.
Proof.
  intros k st su g ws m w RM CE. destruct (cells_new k st su g ws m 0 RM CE ltac:(lia)) as (a & m1 & m' & EA & ES & C & F & R).
  exists a, m'. split; [|auto]. unfold automatic, andthen, alloc_, store_, done. cbn [Z.eqb Pos.eqb]. rewrite EA, ES. reflexivity.
Qed.
End New.
Lemma cells_start m ws : (forall i a v, nth_error ws i = Some (a, v) -> load m a = Some v) ->
  (forall i j a v b u, nth_error ws i = Some (a, v) -> nth_error ws j = Some (b, u) -> i <> j -> apart a 8 b 8) ->
  cells (m_stack m) (m_static m) (m_byte m) ws m.
Proof. intros A B. constructor; auto. Qed.

(** ** Expressions *)
Section Eval.
Context {W : Type}.
Variable H : host W.
Variable locals : bool.
Variable call : string -> list Z -> act W Z.
Variable sc : scope.
Variable r : env.
Notation rv := (rvalue H locals call sc r).
(** The name [x] stands for the variable at [a]. *)
Definition var_at (x : string) (a : Z) : Prop := exists p, variable H sc r x = Some p /\ forall m w, p m w = Val a m w.
Lemma ev_var k x a v m w : var_at x a -> load m a = Some v -> rv k (EVar x) m w = Val v m w.
Proof. intros (p & E & P) LD. cbn [rvalue]. rewrite E. unfold andthen. rewrite P. unfold load_. rewrite LD. reflexivity. Qed.
Lemma ev_asg k x a e v m w m1 w1 m2 : var_at x a -> rv k e m w = Val v m1 w1 -> store m1 a v = Some m2 -> rv k (EAsg None (EVar x) e) m w = Val v m2 w1.
Proof.
  intros (p & E & P) EV ES. cbn [rvalue lvalue lits]. rewrite E, Z.add_0_r. unfold andthen. rewrite P, EV. unfold store_. rewrite ES. reflexivity.
Qed.
Lemma ev_asgop k op x a e v old new m w m1 w1 m2 : var_at x a -> rv k e m w = Val v m1 w1 -> load m1 a = Some old -> operate op old v = Some new ->
  store m1 a new = Some m2 -> rv k (EAsg (Some op) (EVar x) e) m w = Val new m2 w1.
Proof.
  intros (p & E & P) EV LD OP ES. cbn [rvalue lvalue lits]. rewrite E, Z.add_0_r. unfold andthen, load_, maybe, store_, done. rewrite P, EV, LD, OP. rewrite ES. reflexivity.
Qed.
Lemma ev_post k x a v m w m' : var_at x a -> load m a = Some v -> store m a (wrap64 (v + 1)) = Some m' -> rv k (EPost OAdd (EVar x)) m w = Val v m' w.
Proof.
  intros (p & E & P) LD ES. cbn [rvalue lvalue]. rewrite E. unfold andthen, step_by, andthen, load_, maybe, store_, done. rewrite P, LD. cbn [arith]. rewrite ES. reflexivity.
Qed.
Lemma ev_pre k x a v m w m' : var_at x a -> load m a = Some v -> store m a (wrap64 (v + 1)) = Some m' -> rv k (EPre OAdd (EVar x)) m w = Val (wrap64 (v + 1)) m' w.
Proof.
  intros (p & E & P) LD ES. cbn [rvalue lvalue]. rewrite E. unfold andthen, step_by, andthen, load_, maybe, store_, done. rewrite P, LD. cbn [arith]. rewrite ES. reflexivity.
Qed.
Lemma ev_bin k op a b v u z m w m1 w1 m2 w2 : rv k a m w = Val v m1 w1 -> rv (k + lits a) b m1 w1 = Val u m2 w2 -> operate op v u = Some z ->
  rv k (EBin op a b) m w = Val z m2 w2.
Proof. intros E1 E2 E. cbn [rvalue]. unfold andthen, maybe. rewrite E1, E2, E. reflexivity. Qed.
Lemma ev_int k z m w : rv k (EInt z) m w = Val z m w.
Proof. reflexivity. Qed.
Lemma ev_named k x l : called H locals sc r x = None -> rv k (ECall (ECallee x) l) = (vs <~ rvalues H locals call sc r k l ;; call x vs)%act.
Proof. intros E. transitivity (match called H locals sc r x with
   | Some p => a <~ p ;; f <~ load_ a ;; vs <~ rvalues H locals call sc r k l ;; call_at H call f vs
   | None => vs <~ rvalues H locals call sc r k l ;; call x vs
   end)%act; [reflexivity|]. rewrite E. reflexivity. Qed.
Lemma ev_cons k e l : rvalues H locals call sc r k (ECons e l) = (v <~ rv k e ;; vs <~ rvalues H locals call sc r (k + lits e) l ;; done (v :: vs))%act.
Proof. reflexivity. Qed.
Lemma ev_nil k : rvalues H locals call sc r k ENil = done [].
Proof. reflexivity. Qed.
Lemma ev_call1 k x e v z m w m1 w1 m2 w2 : called H locals sc r x = None -> rv k e m w = Val v m1 w1 -> call x [v] m1 w1 = Val z m2 w2 ->
  rv k (ECall (ECallee x) (ECons e ENil)) m w = Val z m2 w2.
Proof. intros C E1 E2. rewrite ev_named by exact C. rewrite !ev_cons, ev_nil. unfold andthen, done. rewrite E1. exact E2. Qed.
Lemma ev_call2 k x e1 e2 v1 v2 z m w m1 w1 m2 w2 m3 w3 : called H locals sc r x = None -> rv k e1 m w = Val v1 m1 w1 -> rv (k + lits e1) e2 m1 w1 = Val v2 m2 w2 ->
  call x [v1; v2] m2 w2 = Val z m3 w3 -> rv k (ECall (ECallee x) (ECons e1 (ECons e2 ENil))) m w = Val z m3 w3.
Proof. intros C E1 E2 E3. rewrite ev_named by exact C. rewrite !ev_cons, ev_nil. unfold andthen, done. rewrite E1, E2. exact E3. Qed.
Lemma ev_cond k a b d v m w m1 w1 x : rv k a m w = Val v m1 w1 ->
  (if v =? 0 then rv (k + lits a + lits b) d m1 w1 else rv (k + lits a) b m1 w1) = x -> rv k (ECond a b d) m w = x.
Proof. intros E1 E2. cbn [rvalue]. unfold andthen. rewrite E1. destruct (v =? 0); exact E2. Qed.
End Eval.
Lemma accessible_more m m' p b n : m_stack m' = p :: m_stack m -> m_static m' = m_static m -> accessible m b n = true -> accessible m' b n = true.
Proof. intros E1 E2 A. unfold accessible in *. rewrite E1, E2. cbn [app existsb]. rewrite A. apply orb_true_r. Qed.
Lemma load_int64 m a v : load m a = Some v -> - 2 ^ 63 <= v < 2 ^ 63.
Proof.
  unfold load. destruct (word_ok m a); [|discriminate]. destruct (word_of (m_byte m) a 8); [|discriminate]. intros E. injection E as <-. apply wrap64_range.
Qed.
