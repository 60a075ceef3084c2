(** * SimRen: code whose variables have other names does the same *)
From Coq Require Import List Ascii String ZArith Bool.
From Verif Require Import Base IR SpecSem IRSem IRDet Files.
From Verif Require SpecIR.
Import ListNotations.
Open Scope Z_scope.

(** ** Machines that agree do the same *)
Section Agree.
Context {W : Type}.
Variables I1 I2 : ihost W.
Variables M1 M2 : module_.
Definition term_rel (f : frame) (t u : term) : Prop :=
  match t, u with
  | TRet v, TRet v' => operand I1 f v = operand I2 f v'
  | TBr b, TBr b' => b = b'
  | TCondBr v a b, TCondBr v' a' b' => operand I1 f v = operand I2 f v' /\ a = a' /\ b = b'
  | TSwitch v d l, TSwitch v' d' l' => operand I1 f v = operand I2 f v' /\ d = d' /\ l = l'
  | _, _ => False
  end.
Definition inst_rel (f : frame) (i j : inst) : Prop :=
  match i with
  | ICall r v nf va args => exists v' args', j = ICall r v' nf va args' /\ callee I1 f v = callee I2 f v' /\ IRSem.operands I1 f args = IRSem.operands I2 f args'
  | _ => forall m, plain I1 i f m = plain I2 j f m
  end.
Definition blocks_rel (F G : list block) : Prop := forall f,
  (forall i, fetch F f = Some i -> exists j, fetch G f = Some j /\ inst_rel f i j) /\
  (forall t, at_end F f = Some t -> exists u, at_end G f = Some u /\ term_rel f t u).
Hypothesis EXT : forall g args m w, i_ext I1 g args m w = i_ext I2 g args m w.
Hypothesis DEF : forall g fn, definition_of g (m_funcs M1) = Some fn ->
  exists fn', definition_of g (m_funcs M2) = Some fn' /\ f_params fn' = f_params fn /\ blocks_rel (f_blocks fn) (f_blocks fn').
Hypothesis NODEF : forall g, definition_of g (m_funcs M1) = None -> definition_of g (m_funcs M2) = None.
Lemma enter_params f g args : f_params g = f_params f -> enter g args = enter f args.
Proof. unfold enter. intros ->. reflexivity. Qed.
Lemma agree_all :
  (forall F x y, step I1 M1 F x y -> forall G, blocks_rel F G -> step I2 M2 G x y) /\
  (forall F x y, steps I1 M1 F x y -> forall G, blocks_rel F G -> steps I2 M2 G x y) /\
  (forall g args m w r, icall I1 M1 g args m w r -> icall I2 M2 g args m w r).
Proof.
  apply (machine_ind W I1 M1
    (fun F x y _ => forall G, blocks_rel F G -> step I2 M2 G x y)
    (fun F x y _ => forall G, blocks_rel F G -> steps I2 M2 G x y)
    (fun g args m w r _ => icall I2 M2 g args m w r)).
  - intros F i f m w f' m' E1 E2 G R. destruct (proj1 (R f) _ E1) as (j & F1 & K). eapply st_plain; [exact F1|].
    destruct i; cbn [inst_rel] in K; try (rewrite <- K; exact E2). discriminate E2.
  - intros F r v nf va args f m w g zs z m' w' E1 E2 E3 _ IH G R. destruct (proj1 (R f) _ E1) as (j & F1 & v' & args' & -> & K1 & K2).
    eapply st_call; [exact F1|rewrite <- K1; exact E2|rewrite <- K2; exact E3|exact IH].
  - intros F r v nf va args f m w g zs z w' E1 E2 E3 _ IH G R. destruct (proj1 (R f) _ E1) as (j & F1 & v' & args' & -> & K1 & K2).
    eapply st_exit; [exact F1|rewrite <- K1; exact E2|rewrite <- K2; exact E3|exact IH].
  - intros F v z f m w E1 E2 G R. destruct (proj2 (R f) _ E1) as (u & F1 & K). destruct u; cbn in K; try contradiction.
    eapply st_ret; [exact F1|rewrite <- K; exact E2].
  - intros F b f m w E1 G R. destruct (proj2 (R f) _ E1) as (u & F1 & K). destruct u; cbn in K; try contradiction. subst.
    eapply st_br; exact F1.
  - intros F v bt bf z f m w E1 E2 G R. destruct (proj2 (R f) _ E1) as (u & F1 & K). destruct u; cbn in K; try contradiction.
    destruct K as (K & <- & <-). eapply st_condbr; [exact F1|rewrite <- K; exact E2].
  - intros F v d l z f m w E1 E2 G R. destruct (proj2 (R f) _ E1) as (u & F1 & K). destruct u; cbn in K; try contradiction.
    destruct K as (K & <- & <-). eapply st_switch; [exact F1|rewrite <- K; exact E2].
  - intros F x G R. apply steps_refl.
  - intros F x y z _ IH1 _ IH2 G R. eapply steps_step; eauto.
  - intros g args m w fn fr z m' w' E1 E2 _ IH. destruct (DEF _ _ E1) as (fn' & D & P & R). eapply ic_return; [exact D|rewrite (enter_params _ _ _ P); exact E2|auto].
  - intros g args m w fn fr z w' E1 E2 _ IH. destruct (DEF _ _ E1) as (fn' & D & P & R). eapply ic_exit; [exact D|rewrite (enter_params _ _ _ P); exact E2|auto].
  - intros g args m w r E1 E2. apply ic_outside; [auto|]. rewrite <- EXT. exact E2.
Qed.
Lemma agree_busy :
  forall n g args m w, busy I1 M1 n g args m w -> busy I2 M2 n g args m w.
Proof.
  apply (busy_mind I1 M1
    (fun n F x _ => forall G, blocks_rel F G -> lasts I2 M2 n G x)
    (fun n g args m w _ => busy I2 M2 n g args m w)).
  - intros. apply la_now.
  - intros n F x y S _ IH G R. eapply la_step; [eapply (proj1 agree_all); eauto|auto].
  - intros n F r v nf va args f m w g zs E1 E2 E3 _ IH G R. destruct (proj1 (R f) _ E1) as (j & F1 & v' & args' & -> & K1 & K2).
    eapply la_call; [exact F1|rewrite <- K1; exact E2|rewrite <- K2; exact E3|exact IH].
  - intros. apply bu_now.
  - intros n g args m w fn fr E1 E2 _ IH. destruct (DEF _ _ E1) as (fn' & D & P & R). eapply bu_in; [exact D|rewrite (enter_params _ _ _ P); exact E2|auto].
Qed.
End Agree.

(** ** Renaming *)
Section Ren.
Context {W : Type}.
Variables I J : ihost W.
Variable r : string -> string.
Hypothesis PLACE : forall m n, i_place J m n = i_place I m n.
Hypothesis FUN : forall a, i_fun J a = i_fun I a.
(** The symbols of an operand have the addresses of the new names. *)
Definition okv (v : value) : Prop :=
  match v with VGlob n => i_sym J n = i_sym I (r n) | VFun n _ _ => i_sym J n = i_sym I n | _ => True end.
Definition okF (F : list block) : Prop := forall v, In v (SpecIR.all_operands F) -> okv v.
Lemma ren_operand f v : okv v -> operand J f v = operand I f (ren_value r v).
Proof. destruct v; cbn; congruence. Qed.
Lemma ren_operands f l : (forall v, In v l -> okv v) -> IRSem.operands J f l = IRSem.operands I f (map (ren_value r) l).
Proof. induction l as [|v l IH]; cbn; auto. intros K. rewrite (ren_operand f v), IH; auto. Qed.
Lemma ren_callee f v : okv v -> callee J f v = callee I f (ren_value r v).
Proof.
  intros K. destruct v; cbn in *; auto.
  - destruct (fr_reg f r0); auto.
  - rewrite K. auto.
  - destruct (fr_par f); auto.
Qed.
Lemma ren_incoming p l : incoming p (map (fun q => (ren_value r (fst q), snd q)) l) = option_map (ren_value r) (incoming p l).
Proof. induction l as [|[v b] l IH]; cbn; auto. destruct (Nat.eqb b p); auto. Qed.
Lemma incoming_in p l v : incoming p l = Some v -> In v (map fst l).
Proof. induction l as [|[u b] l IH]; cbn; [discriminate|]. destruct (Nat.eqb b p); [intros [= ->]; auto|auto]. Qed.
Lemma alloc_place m n : alloc (i_place J) m n = alloc (i_place I) m n.
Proof. unfold alloc. rewrite PLACE. reflexivity. Qed.
Lemma ren_plain i f m : (forall v, In v (SpecIR.operands i) -> okv v) -> plain J i f m = plain I (ren_inst r i) f m.
Proof.
  intros K. destruct i; cbn [plain ren_inst]; auto;
    rewrite <- ?ren_operand by (apply K; cbn; auto); rewrite ?alloc_place; auto.
  rewrite ren_incoming. destruct (incoming (fr_prev f) inc) as [v|] eqn:E; cbn; auto.
  rewrite <- ren_operand; auto. apply K. cbn. eapply incoming_in; eauto.
Qed.
Lemma ren_plain_back i f m : (forall v, In v (SpecIR.operands i) -> okv v) -> plain I (ren_inst r i) f m = plain J i f m.
Proof. intros. symmetry. apply ren_plain. auto. Qed.
Lemma ren_fetch F f : fetch (map (ren_block r) F) f = option_map (ren_inst r) (fetch F f).
Proof. unfold fetch. rewrite nth_error_map. destruct (nth_error F (fr_blk f)) as [b|]; cbn; auto. apply nth_error_map. Qed.
Lemma ren_end F f : at_end (map (ren_block r) F) f = option_map (ren_term r) (at_end F f).
Proof.
  unfold at_end. rewrite nth_error_map. destruct (nth_error F (fr_blk f)) as [b|]; cbn; auto. rewrite map_length.
  destruct (Nat.eqb _ _); cbn; auto.
Qed.
Lemma fetch_operands F f i v : fetch F f = Some i -> In v (SpecIR.operands i) -> In v (SpecIR.all_operands F).
Proof.
  unfold fetch. destruct (nth_error F (fr_blk f)) as [b|] eqn:E; [|discriminate]. intros E2 K. apply nth_error_In in E, E2.
  unfold SpecIR.all_operands, SpecIR.all_insts. apply in_or_app. left. apply in_flat_map. exists i. split; auto. apply in_flat_map. eauto.
Qed.
Lemma end_operands F f t v : at_end F f = Some t -> In v (SpecIR.term_operands t) -> In v (SpecIR.all_operands F).
Proof.
  unfold at_end. destruct (nth_error F (fr_blk f)) as [b|] eqn:E; [|discriminate]. destruct (Nat.eqb _ _); [|discriminate].
  intros E2 K. apply nth_error_In in E. unfold SpecIR.all_operands. apply in_or_app. right. apply in_flat_map. exists t. split; auto.
  apply in_flat_map. exists b. split; auto. unfold SpecIR.block_terms. rewrite E2. left. auto.
Qed.
Lemma ren_rel F : okF F -> blocks_rel J I F (map (ren_block r) F).
Proof.
  intros K f. split.
  - intros i E. exists (ren_inst r i). rewrite ren_fetch, E. split; auto.
    assert (KI : forall v, In v (SpecIR.operands i) -> okv v) by (intros v V; apply K; eapply fetch_operands; eauto).
    destruct i; cbn [inst_rel]; try (intros m; apply (ren_plain _ f m KI)).
    exists (ren_value r f0), (map (ren_value r) args). split; auto. split; [apply ren_callee|apply ren_operands]; intros; apply KI; cbn; auto.
  - intros t E. exists (ren_term r t). rewrite ren_end, E. split; auto.
    assert (KT : forall v, In v (SpecIR.term_operands t) -> okv v) by (intros v V; apply K; eapply end_operands; eauto).
    destruct t; cbn; auto; repeat split; apply ren_operand, KT; cbn; auto.
Qed.
Lemma ren_rel_back F : okF F -> blocks_rel I J (map (ren_block r) F) F.
Proof.
  intros K f. split.
  - intros i' E'. rewrite ren_fetch in E'. destruct (fetch F f) as [i|] eqn:E; [|discriminate E']. injection E' as <-. exists i. split; auto.
    assert (KI : forall v, In v (SpecIR.operands i) -> okv v) by (intros v V; apply K; eapply fetch_operands; eauto).
    pose proof (fun m => ren_plain_back i f m KI) as P. destruct i; cbn [inst_rel ren_inst] in *; try exact P.
    exists f0, args. split; auto. split; symmetry; [apply ren_callee|apply ren_operands]; intros; apply KI; cbn; auto.
  - intros t' E'. rewrite ren_end in E'. destruct (at_end F f) as [t|] eqn:E; [|discriminate E']. injection E' as <-. exists t. split; auto.
    assert (KT : forall v, In v (SpecIR.term_operands t) -> okv v) by (intros v V; apply K; eapply end_operands; eauto).
    destruct t; cbn; auto; repeat split; symmetry; apply ren_operand, KT; cbn; auto.
Qed.
Lemma ren_definition g l : definition_of g (map (ren_func r) l) = option_map (ren_func r) (definition_of g l).
Proof.
  induction l as [|f l IH]; cbn; auto. destruct (String.eqb (f_name f) g); auto. destruct (f_blocks f); cbn; auto.
Qed.
Lemma definition_in g l f : definition_of g l = Some f -> In f l.
Proof.
  induction l as [|h l IH]; cbn; [discriminate|]. destruct (String.eqb (f_name h) g); auto. destruct (f_blocks h); auto. intros [= ->]. auto.
Qed.
Variables P Q : module_.
Hypothesis EXT : forall g args m w, i_ext J g args m w = i_ext I g args m w.
Hypothesis CODE : m_funcs Q = map (ren_func r) (m_funcs P).
Hypothesis OK : forall f, In f (m_funcs P) -> okF (f_blocks f).
Theorem ren_icall g args m w x : icall J P g args m w x <-> icall I Q g args m w x.
Proof.
  split.
  - apply (agree_all J I P Q); auto.
    + intros g' fn E. exists (ren_func r fn). rewrite CODE, ren_definition, E. split; auto. split; auto. apply ren_rel. apply OK. eapply definition_in; eauto.
    + intros g' E. rewrite CODE, ren_definition, E. auto.
  - apply (agree_all I J Q P); auto.
    + intros g' fn E. rewrite CODE, ren_definition in E. destruct (definition_of g' (m_funcs P)) as [f|] eqn:D; [|discriminate]. injection E as <-.
      exists f. split; auto. split; auto. apply ren_rel_back. apply OK. eapply definition_in; eauto.
    + intros g' E. rewrite CODE, ren_definition in E. destruct (definition_of g' (m_funcs P)); [discriminate|auto].
Qed.
Theorem ren_busy n g args m w : busy J P n g args m w <-> busy I Q n g args m w.
Proof.
  split.
  - apply (agree_busy J I P Q); auto.
    + intros g' fn E. exists (ren_func r fn). rewrite CODE, ren_definition, E. split; auto. split; auto. apply ren_rel. apply OK. eapply definition_in; eauto.
    + intros g' E. rewrite CODE, ren_definition, E. auto.
  - apply (agree_busy I J Q P); auto.
    + intros g' fn E. rewrite CODE, ren_definition in E. destruct (definition_of g' (m_funcs P)) as [f|] eqn:D; [|discriminate]. injection E as <-.
      exists f. split; auto. split; auto. apply ren_rel_back. apply OK. eapply definition_in; eauto.
    + intros g' E. rewrite CODE, ren_definition in E. destruct (definition_of g' (m_funcs P)); [discriminate|auto].
Qed.
End Ren.
