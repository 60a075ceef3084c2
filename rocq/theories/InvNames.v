(** * InvNames: the names of the blocks of a function are distinct *)
From Coq Require Import List Ascii String ZArith NArith Lia Bool.
From Verif Require Import Base Lexer IR Builder Expr Stmt Decl DriverModes Wp Syntax Pure ParseGen Pwp Names InvIR InvDecl.
Import ListNotations.
Open Scope string_scope.
Open Scope list_scope.
Open Scope Z_scope.
Open Scope m_scope.

(** ** Names made from the label counter *)
Definition gparts (id : Z) : list (list string) :=
  [["cond"; "then"; dec id]; ["cond"; "else"; dec id]; ["cond"; "end"; dec id];
   ["if"; dec id; "then"]; ["if"; dec id; "else"]; ["if"; dec id; "end"];
   ["while"; dec id; "cond"]; ["while"; dec id; "body"]; ["while"; dec id; "end"];
   ["switch"; dec id; "stmts"]; ["switch"; dec id; "cmp"]; ["switch"; dec id; "end"];
   ["unreachable"; dec id]].
Definition case_name (id z : Z) : string := join ["case"; dec id; dec z].
(** Names of labels: of the user, or of cases. *)
Definition label_name (n : string) : Prop := nodot n \/ exists id z, n = case_name id z.

Ltac nd := solve [apply nodot_dec | apply nodot_b; reflexivity | assumption].
Lemma gparts_nodot id p : In p (gparts id) -> Forall nodot p /\ p <> [].
Proof.
  cbn. intros H. decompose [or] H; try contradiction; subst; (split; [repeat constructor; nd|discriminate]).
Qed.
Lemma gparts_id id id' p : In p (gparts id) -> In p (gparts id') -> id = id'.
Proof.
  cbn. intros H H'. decompose [or] H; try contradiction; subst; clear H; decompose [or] H'; try contradiction;
    match goal with K : _ = _ |- _ => injection K; intros; first [symmetry; apply dec_inj; assumption | idtac] end;
    try discriminate; try (apply dec_inj; congruence).
Qed.
Lemma gname_inj id id' p p' : In p (gparts id) -> In p' (gparts id') -> join p = join p' -> p = p' /\ id = id'.
Proof.
  intros H H' E. destruct (gparts_nodot _ _ H), (gparts_nodot _ _ H').
  apply join_inj in E; auto. subst. split; auto. eapply gparts_id; eauto.
Qed.
Lemma gname_not_label id p : In p (gparts id) -> label_name (join p) -> False.
Proof.
  intros H [N|(i & z & E)].
  - cbn in H. decompose [or] H; try contradiction; subst; (eapply nodot_dot; [exact N|apply join_cons]).
  - destruct (gparts_nodot _ _ H). apply join_inj in E; auto; try discriminate; [|repeat constructor; nd].
    subst. cbn in H. decompose [or] H; try contradiction; discriminate.
Qed.

(** ** The invariant *)
Definition bnames (c : cstate) : list string := map b_name (c_blocks c).
Record NI (c : cstate) : Prop := {
  NI_entry : hd_error (bnames c) = Some "entry"%string;
  NI_nodup : NoDup (tl (bnames c));
  NI_kind : forall n, In n (tl (bnames c)) ->
    (label_name n /\ assoc n (c_labels c) <> None) \/ (exists id p, id < c_labelID c /\ In p (gparts id) /\ n = join p);
  NI_labels : forall n, assoc n (c_labels c) <> None -> label_name n
}.
(** What a step may add. *)
Definition grows (c c' : cstate) : Prop :=
  c_labelID c <= c_labelID c' /\
  forall n, In n (tl (bnames c')) -> In n (tl (bnames c)) \/ label_name n \/ exists id p, c_labelID c <= id /\ In p (gparts id) /\ n = join p.
Lemma grows_refl c : grows c c. Proof. split; [lia|auto]. Qed.
Lemma grows_trans a b c : grows a b -> grows b c -> grows a c.
Proof.
  intros [H1 H2] [H3 H4]. split; [lia|]. intros n Hn. destruct (H4 n Hn) as [K|[K|(id & p & K1 & K2 & K3)]]; auto.
  right. right. exists id, p. split; [lia|auto].
Qed.
(** No block has a name made from [id]. *)
Definition unused (id : Z) (used : list (list string)) (c : cstate) : Prop :=
  id < c_labelID c /\ forall p, In p (gparts id) -> ~ In p used -> ~ In (join p) (tl (bnames c)).
Lemma unused_grows id u c c' : unused id u c -> grows c c' -> unused id u c'.
Proof.
  intros [H1 H2] [H3 H4]. split; [lia|]. intros p Hp Hu K. destruct (H4 _ K) as [K1|[K1|(id' & p' & K1 & K2 & K3)]].
  - eapply H2; eauto.
  - eapply gname_not_label; eauto.
  - destruct (gname_inj _ _ _ _ Hp K2 K3). lia.
Qed.

Definition kept {A} (m : C A) : Prop := forall c, NI c -> pwp m (fun _ c' => NI c' /\ grows c c') c.
Lemma kept_bind {A B} (m : C A) (f : A -> C B) : pure m -> kept m -> (forall a, kept (f a)) -> kept (bind m f).
Proof.
  intros P H1 H2 c HN. eapply pwp_use; [auto|apply H1; auto|]. cbv beta. intros a c' (HN' & G).
  eapply pwp_mono; [apply H2; auto|]. cbv beta. intros b c2 (HN2 & G2). split; auto. eapply grows_trans; eauto.
Qed.
Lemma kept_ret {A} (a : A) : kept (ret a).
Proof. intros c H. apply pwp_ret. auto using grows_refl. Qed.
Lemma kept_err {A} e : kept (@errorf st A e).
Proof. intros c H. apply pwp_err. Qed.
Lemma kept_get : kept get.
Proof. intros c H. apply pwp_get. auto using grows_refl. Qed.
(** Steps that change neither the block names nor the labels. *)
Lemma NI_same c c' : bnames c' = bnames c -> c_labels c' = c_labels c -> c_labelID c' = c_labelID c -> NI c -> NI c' /\ grows c c'.
Proof.
  intros E1 E2 E3 []. split.
  - constructor; rewrite ?E1, ?E2, ?E3; auto.
  - split; [lia|]. rewrite E1. auto.
Qed.
Lemma kept_modify f : (forall c, bnames (f c) = bnames c /\ c_labels (f c) = c_labels c /\ c_labelID (f c) = c_labelID c) -> kept (modify f).
Proof. intros H c HN. apply pwp_modify. destruct (H c) as (? & ? & ?). apply NI_same; auto. Qed.
Lemma kept_emit i : kept (emit i).
Proof. apply kept_modify. intros c. split; auto. apply map_upd. auto. Qed.
Lemma kept_setTerm i : kept (setTerm i).
Proof. apply kept_modify. intros c. split; auto. apply map_upd. auto. Qed.
Lemma kept_emitR mk : kept (emitR mk).
Proof. intros c HN. apply pwp_emitR. apply NI_same; auto. apply map_upd. auto. Qed.
Lemma kept_SetInsertPoint b : kept (SetInsertPoint b).
Proof. apply kept_modify. auto. Qed.
Lemma kept_GetInsertBlock : kept GetInsertBlock.
Proof. intros c H. apply pwp_GetInsertBlock. auto using grows_refl. Qed.
Lemma kept_bind_local n v : kept (bind_local n v).
Proof. apply kept_modify. auto. Qed.
Lemma kept_termIsNil : kept termIsNil.
Proof. intros c H. apply pwp_termIsNil. auto using grows_refl. Qed.
Lemma kept_CreateStringConstant s : kept (CreateStringConstant s).
Proof.
  unfold CreateStringConstant. apply kept_bind; [auto with pure|apply kept_get|]. intros c.
  apply kept_bind; [auto with pure| |intros; apply kept_ret]. apply kept_modify. auto.
Qed.
Lemma kept_GetOrDeclareFunction n : kept (GetOrDeclareFunction n).
Proof.
  unfold GetOrDeclareFunction. apply kept_bind; [auto with pure|apply kept_get|]. intros c.
  destruct (assoc n (c_functions c)); [apply kept_ret|]. destruct (assoc n (c_globals c)); [apply kept_ret|].
  apply kept_bind; [auto with pure| |intros; apply kept_ret]. apply kept_modify. auto.
Qed.
Lemma kept_externName n : kept (externName n).
Proof.
  unfold externName. apply kept_bind; [auto with pure|apply kept_get|]. intros c.
  destruct (findGlobalByName c n); [apply kept_modify; auto|]. destruct (findFuncByName c n); [apply kept_err|].
  destruct (mem n (c_used c)); [apply kept_err|]. apply kept_modify. auto.
Qed.

(** ** New blocks *)
Lemma tl_snoc {A} (l : list A) x h : hd_error l = Some h -> tl (l ++ [x]) = (tl l ++ [x])%list.
Proof. destruct l; cbn; auto. discriminate. Qed.
Lemma kept_GetOrCreateLabel n : label_name n -> kept (GetOrCreateLabel n).
Proof.
  intros HL c HN. unfold GetOrCreateLabel. apply pwp_bind; [auto with pure|]. apply pwp_get. destruct (assoc n (c_labels c)) eqn:E.
  { apply pwp_ret. auto using grows_refl. }
  apply pwp_bind; [auto with pure|]. apply pwp_NewBlock. apply pwp_bind; [auto with pure|]. apply pwp_modify. apply pwp_ret.
  destruct HN.
  assert (EB : tl (bnames (set_labels ((n, List.length (c_blocks c)) :: c_labels (set_blocks (c_blocks c ++ [mkBlock n [] None]) c))
     (set_blocks (c_blocks c ++ [mkBlock n [] None]) c))) = (tl (bnames c) ++ [n])%list).
  { unfold bnames. cbn. rewrite map_app. eapply tl_snoc; eauto. }
  split.
  - constructor.
    + unfold bnames. cbn. rewrite map_app. unfold bnames in NI_entry0. destruct (c_blocks c); [discriminate|]. auto.
    + rewrite EB. apply NoDup_snoc; auto. intros K. destruct (NI_kind0 n K) as [[_ K1]|(id & p & _ & K2 & ->)]; [auto|].
      eapply gname_not_label; eauto.
    + rewrite EB. intros x Hx. apply in_app_or in Hx. cbn [assoc c_labels set_labels set_blocks c_labelID].
      destruct Hx as [Hx|[<-|[]]].
      * destruct (NI_kind0 x Hx) as [[K1 K2]|K]; auto. left. split; auto. destruct (String.eqb x n); auto. discriminate.
      * left. split; auto. rewrite String.eqb_refl. discriminate.
    + cbn [assoc c_labels set_labels set_blocks]. intros x. destruct (String.eqb_spec x n); subst; auto.
  - split; [cbn; lia|]. rewrite EB. intros x Hx. apply in_app_or in Hx. destruct Hx as [Hx|[<-|[]]]; auto.
Qed.
Lemma pwp_freshID c (Q : Z -> cstate -> Prop) : NI c ->
  (forall c', NI c' -> grows c c' -> c_labelID c' = c_labelID c + 1 -> unused (c_labelID c) [] c' -> Q (c_labelID c) c') ->
  pwp nextLabelID Q c.
Proof.
  intros HN H. apply pwp_nextLabelID. destruct HN. apply H; auto.
  - constructor; auto. intros n Hn. destruct (NI_kind0 n Hn) as [|(id & p & K1 & K2 & K3)]; auto.
    right. exists id, p. cbn. split; [lia|auto].
  - split; [cbn; lia|auto].
  - split; [cbn; lia|]. intros p Hp _ K. destruct (NI_kind0 _ K) as [[K1 _]|(id & p' & K1 & K2 & K3)].
    + eapply gname_not_label; eauto.
    + destruct (gname_inj _ _ _ _ Hp K2 K3). lia.
Qed.
Lemma pwp_newgen c id used p n (Q : nat -> cstate -> Prop) : NI c -> unused id used c -> n = join p -> In p (gparts id) -> ~ In p used ->
  (forall c' b, NI c' -> unused id (p :: used) c' -> 
     (forall c0, unused id [] c0 -> id = c_labelID c0 -> grows c0 c -> grows c0 c') ->
     (forall c0, c_labelID c0 <= id -> grows c0 c -> grows c0 c') -> Q b c') ->
  pwp (NewBlock n) Q c.
Proof.
  intros HN [U1 U2] -> Hp Hu H. apply pwp_NewBlock. destruct HN.
  set (c' := set_blocks (c_blocks c ++ [mkBlock (join p) [] None]) c).
  assert (EB : tl (bnames c') = (tl (bnames c) ++ [join p])%list).
  { unfold bnames. cbn. rewrite map_app. eapply tl_snoc; eauto. }
  assert (GG : forall c0, c_labelID c0 <= id -> grows c0 c -> grows c0 c').
  { intros c0 L [G1 G2]. split; [cbn; lia|]. rewrite EB. intros x Hx. apply in_app_or in Hx. destruct Hx as [Hx|[<-|[]]]; auto.
    right. right. exists id, p. auto. }
  apply H; auto.
  - constructor; auto.
    + unfold bnames. cbn. rewrite map_app. unfold bnames in NI_entry0. destruct (c_blocks c); [discriminate|]. auto.
    + rewrite EB. apply NoDup_snoc; auto.
    + rewrite EB. intros x Hx. apply in_app_or in Hx. destruct Hx as [Hx|[<-|[]]]; [apply NI_kind0; auto|].
      right. exists id, p. auto.
  - split; [cbn; lia|]. intros q Hq Hu'. rewrite EB. intros K. apply in_app_or in K. destruct K as [K|[K|[]]].
    + apply (U2 q); auto. intros X. apply Hu'. right. auto.
    + destruct (gname_inj _ _ _ _ Hq Hp (eq_sym K)) as [-> _]. apply Hu'. left. auto.
  - intros c0 _ -> . apply GG. lia.
Qed.

Lemma kept_new3 {A} id (n1 n2 n3 : string) (p1 p2 p3 : list string) (k : nat -> nat -> nat -> C A) :
  n1 = join p1 -> n2 = join p2 -> n3 = join p3 ->
  In p1 (gparts id) -> In p2 (gparts id) -> In p3 (gparts id) -> p1 <> p2 -> p1 <> p3 -> p2 <> p3 ->
  (forall a b d, kept (k a b d)) ->
  forall c0 c, NI c -> unused id [] c -> grows c0 c -> c_labelID c0 <= id ->
  pwp (b1 <- NewBlock n1 ;; b2 <- NewBlock n2 ;; b3 <- NewBlock n3 ;; k b1 b2 b3) (fun _ c' => NI c' /\ grows c0 c') c.
Proof.
  intros E1 E2 E3 I1 I2 I3 D12 D13 D23 HK c0 c HN HU HG HL.
  apply pwp_bind; [auto with pure|]. eapply pwp_newgen; eauto. intros c1 b1 N1 U1 _ G1.
  apply pwp_bind; [auto with pure|]. eapply pwp_newgen; eauto; [cbn; intuition congruence|]. intros c2 b2 N2 U2 _ G2.
  apply pwp_bind; [auto with pure|]. eapply pwp_newgen; eauto; [cbn; intuition congruence|]. intros c3 b3 N3 U3 _ G3.
  eapply pwp_mono; [apply HK; auto|]. cbv beta. intros a c4 [N4 G4]. split; auto.
  eapply grows_trans; [|eassumption]. auto.
Qed.

Lemma kept_case id z : kept (GetOrCreateLabel ("case." ++ dec id ++ "." ++ dec z)).
Proof. apply kept_GetOrCreateLabel. right. exists id, z. reflexivity. Qed.
Lemma kept_label n : nodot n -> kept (GetOrCreateLabel n).
Proof. intros. apply kept_GetOrCreateLabel. left. auto. Qed.
Create HintDb kept.
#[export] Hint Resolve kept_case kept_label : kept.
#[export] Hint Resolve kept_ret kept_err kept_get kept_emit kept_setTerm kept_emitR kept_SetInsertPoint
  kept_GetInsertBlock kept_bind_local kept_termIsNil kept_CreateStringConstant kept_GetOrDeclareFunction kept_externName : kept.
Ltac new3 := eapply kept_new3; [reflexivity|reflexivity|reflexivity| | | | | | | | | | | ];
  try match goal with |- In _ _ => cbn; auto 20 | |- _ <> _ => discriminate end.
Ltac kept_tac :=
  repeat (first
    [ solve [auto with kept nocore]
    | assumption
    | match goal with H : forall _, _ |- kept _ => solve [apply H; auto] end
    | apply kept_bind; [solve [pure_tac]| |intros ?]
    | match goal with
      | |- kept (let _ := _ in _) => cbv zeta
      | |- kept (if ?x then _ else _) => destruct x
      | |- kept (match ?x with _ => _ end) => destruct x
      end ]).
Lemma kept_id3 {A} (n1 n2 n3 : Z -> string) (p1 p2 p3 : Z -> list string) (k : Z -> nat -> nat -> nat -> C A) :
  (forall id, n1 id = join (p1 id)) -> (forall id, n2 id = join (p2 id)) -> (forall id, n3 id = join (p3 id)) ->
  (forall id, In (p1 id) (gparts id)) -> (forall id, In (p2 id) (gparts id)) -> (forall id, In (p3 id) (gparts id)) ->
  (forall id, p1 id <> p2 id) -> (forall id, p1 id <> p3 id) -> (forall id, p2 id <> p3 id) ->
  (forall id a b d, kept (k id a b d)) ->
  kept (id <- nextLabelID ;; b1 <- NewBlock (n1 id) ;; b2 <- NewBlock (n2 id) ;; b3 <- NewBlock (n3 id) ;; k id b1 b2 b3).
Proof.
  intros. intros c HN. apply pwp_bind; [auto with pure|]. apply pwp_freshID; auto. intros c' N' G' L' U'.
  eapply kept_new3; eauto. lia.
Qed.
Lemma kept_id_m3 {A B} (m : C B) (n1 n2 n3 : Z -> string) (p1 p2 p3 : Z -> list string) (k : Z -> B -> nat -> nat -> nat -> C A) :
  pure m -> kept m ->
  (forall id, n1 id = join (p1 id)) -> (forall id, n2 id = join (p2 id)) -> (forall id, n3 id = join (p3 id)) ->
  (forall id, In (p1 id) (gparts id)) -> (forall id, In (p2 id) (gparts id)) -> (forall id, In (p3 id) (gparts id)) ->
  (forall id, p1 id <> p2 id) -> (forall id, p1 id <> p3 id) -> (forall id, p2 id <> p3 id) ->
  (forall id v a b d, kept (k id v a b d)) ->
  kept (id <- nextLabelID ;; v <- m ;; b1 <- NewBlock (n1 id) ;; b2 <- NewBlock (n2 id) ;; b3 <- NewBlock (n3 id) ;; k id v b1 b2 b3).
Proof.
  intros. intros c HN. apply pwp_bind; [auto with pure|]. apply pwp_freshID; auto. intros c' N' G' L' U'.
  eapply pwp_use; [auto|apply H0; auto|]. cbv beta. intros v c2 [N2 G2].
  eapply kept_new3; eauto; [eapply unused_grows; eauto|eapply grows_trans; eauto|lia].
Qed.
Lemma kept_dead {A} (k : nat -> C A) : (forall b, kept (k b)) ->
  kept (id <- nextLabelID ;; b <- NewBlock ("unreachable." ++ dec id) ;; k b).
Proof.
  intros HK c HN. apply pwp_bind; [auto with pure|]. apply pwp_freshID; auto. intros c' N' G' L' U'.
  apply pwp_bind; [auto with pure|].
  eapply (pwp_newgen _ _ _ ["unreachable"; dec (c_labelID c)]); eauto; [cbn; auto 20|]. intros c2 b N2 _ _ G2.
  eapply pwp_mono; [apply HK; auto|]. cbv beta. intros a c3 [N3 G3]. split; auto.
  eapply grows_trans; [|eassumption]. apply G2; auto. lia.
Qed.

Lemma kept_GetAddress n : kept (GetAddress n). Proof. unfold GetAddress. kept_tac. Qed.
#[export] Hint Resolve kept_GetAddress : kept.
Lemma kept_genVar q n : kept (genVar q n). Proof. unfold genVar. kept_tac. Qed.
Lemma kept_genCallee n : kept (genCallee n). Proof. unfold genCallee. kept_tac. Qed.
Lemma kept_rval v b : kept (rval v b). Proof. unfold rval. kept_tac. Qed.
#[export] Hint Resolve kept_genVar kept_genCallee kept_rval : kept.
Lemma kept_cmpz p a b : kept (cmpz p a b). Proof. unfold cmpz. kept_tac. Qed.
#[export] Hint Resolve kept_cmpz : kept.
Lemma kept_applyCop o a b : kept (applyCop o a b). Proof. destruct o; cbn [applyCop]; kept_tac. Qed.
Lemma kept_doCall f a : kept (doCall f a). Proof. unfold doCall. kept_tac. Qed.
Lemma kept_incDec o p : kept (incDec o p). Proof. unfold incDec. kept_tac. Qed.
Lemma kept_brIfOpen b : kept (brIfOpen b). Proof. unfold brIfOpen. kept_tac. Qed.
Lemma kept_DeclareLocal n : kept (DeclareLocal n). Proof. unfold DeclareLocal. kept_tac. Qed.
Lemma kept_DeclareLocalArray n z : kept (DeclareLocalArray n z). Proof. unfold DeclareLocalArray. kept_tac. Qed.
#[export] Hint Resolve kept_applyCop kept_doCall kept_incDec kept_brIfOpen kept_DeclareLocal kept_DeclareLocalArray : kept.
Lemma kept_declareAutos l : kept (declareAutos l).
Proof. induction l as [|[n z] l IH]; cbn [declareAutos]; kept_tac. Qed.
Lemma kept_switchCases id l : kept (switchCases id l).
Proof.
  induction l as [|z l IH]; cbn [switchCases]; kept_tac.
Qed.
Lemma kept_checkAutos l : forall seen, kept (checkAutos seen l).
Proof. induction l as [|[n z] l IH]; intros seen; cbn [checkAutos]; kept_tac. Qed.
Lemma kept_genExtrn l : kept (genExtrn l).
Proof. induction l as [|n l IH]; cbn [genExtrn]; kept_tac. Qed.
#[export] Hint Resolve kept_declareAutos kept_switchCases kept_checkAutos kept_genExtrn : kept.
Ltac side3 := [> intro; reflexivity | intro; reflexivity | intro; reflexivity | intro; cbn; auto 20 | intro; cbn; auto 20 | intro; cbn; auto 20
   | discriminate | discriminate | discriminate | intros ].
Ltac id3 :=
  lazymatch goal with |- kept (bind nextLabelID _) => first
  [ apply (kept_id3 _ _ _ (fun id => ["cond"; "then"; dec id]) (fun id => ["cond"; "else"; dec id]) (fun id => ["cond"; "end"; dec id])); side3
  | apply (kept_id3 _ _ _ (fun id => ["if"; dec id; "then"]) (fun id => ["if"; dec id; "else"]) (fun id => ["if"; dec id; "end"])); side3
  | apply (kept_id3 _ _ _ (fun id => ["while"; dec id; "cond"]) (fun id => ["while"; dec id; "body"]) (fun id => ["while"; dec id; "end"])); side3
  | apply (kept_id_m3 _ _ _ _ (fun id => ["switch"; dec id; "stmts"]) (fun id => ["switch"; dec id; "cmp"]) (fun id => ["switch"; dec id; "end"])); [pure_tac|auto with kept|..]; side3
  | apply kept_dead; intros ] end.
Ltac kept_tac2 :=
  repeat (first
    [ solve [auto with kept nocore]
    | assumption
    | match goal with H : forall _, _ |- kept _ => solve [apply H; auto] end
    | id3
    | apply kept_bind; [solve [pure_tac]| |intros ?]
    | match goal with
      | |- kept (let _ := _ in _) => cbv zeta
      | |- kept (if ?x then _ else _) => destruct x
      | |- kept (match ?x with _ => _ end) => destruct x
      end ]).
Lemma kept_gen_all chk : (forall e q, kept (gen chk q e)) /\ (forall l, kept (genArgs chk l)).
Proof.
  apply expr_exprs_ind; intros; ugen; kept_tac2.
Qed.
Lemma kept_gen chk q e : kept (gen chk q e). Proof. apply kept_gen_all. Qed.
Lemma kept_genArgs chk l : kept (genArgs chk l). Proof. apply kept_gen_all. Qed.
#[export] Hint Resolve kept_gen kept_genArgs : kept.
Lemma kept_genR chk q e : kept (genR chk q e). Proof. unfold genR. kept_tac. Qed.
#[export] Hint Resolve kept_genR : kept.

Lemma kept_genS_all chk : (forall s sw, wfS s -> kept (genS chk s sw)) /\ (forall l sw, wfL l -> kept (genL chk l sw)).
Proof.
  apply stmt_stmts_ind; intros;
    repeat match goal with
    | H : wfS (_ _) |- _ => cbn [wfS] in H
    | H : wfL (_ _) |- _ => cbn [wfL] in H
    | H : _ /\ _ |- _ => destruct H
    | H : name_ok _ |- _ => apply nodot_name in H
    end;
    ugenS; kept_tac2.
Qed.

(** A state whose function has just its entry block. *)
Lemma NI_start c : c_blocks c = [mkBlock "entry" [] None] -> c_labels c = [] -> NI c.
Proof.
  intros E1 E2. constructor; unfold bnames; rewrite ?E1, ?E2; cbn; auto.
  - constructor.
  - contradiction.
  - congruence.
Qed.
Lemma kept_getOrCreateFunc n : kept (getOrCreateFunc n).
Proof. apply kept_modify. intros c. destruct (find_named _ _ _); auto. Qed.
Lemma kept_va_params va l : kept (va_params va l).
Proof. induction l; cbn [va_params]; kept_tac. Qed.
#[export] Hint Resolve kept_getOrCreateFunc kept_va_params : kept.

(** ** Modules *)
(** Block names of a function: the first is "entry", the others are distinct. *)
Definition names_ok (f : func) : Prop :=
  f_blocks f = [] \/ (hd_error (map b_name (f_blocks f)) = Some "entry" /\ NoDup (tl (map b_name (f_blocks f))) /\
    forall n, In n (tl (map b_name (f_blocks f))) -> label_name n \/ exists id p, In p (gparts id) /\ n = join p).

Lemma NI_start_of name params c : pwp (f <- DeclareFunction name params ;; StartFunction name f) (fun _ c1 => NI c1) c.
Proof.
  unfold DeclareFunction. apply pwp_bind; [pure_tac|]. apply pwp_bind; [auto with pure|]. apply pwp_modify. apply pwp_ret.
  unfold StartFunction. apply pwp_bind; [auto with pure|]. apply pwp_modify. apply pwp_bind; [auto with pure|]. apply pwp_get.
  cbv zeta. match goal with |- pwp ?m _ ?c' => set (c1 := c'); assert (K : kept m) by kept_tac; assert (N : NI c1) by (apply NI_start; reflexivity) end.
  eapply pwp_mono; [apply K; auto|]. cbv beta. intros u c2 [H _]. auto.
Qed.
