(** * AlphaSem: modules with the same code behave the same *)
From Coq Require Import List Ascii String ZArith NArith Lia Bool.
From Verif Require Import Base IR SpecSem IRSem SpecAlpha AlphaFacts.
Import ListNotations.
Open Scope Z_scope.

Lemma inst_sym i j : same_inst i j -> same_inst j i.
Proof. intros [->|(p & q & a & -> & ->)]; [left; auto|right; eauto]. Qed.
Lemma F2_sym {A} (R : A -> A -> Prop) : (forall a b, R a b -> R b a) -> forall l l', Forall2 R l l' -> Forall2 R l' l.
Proof. intros H. induction 1; constructor; auto. Qed.
Lemma block_sym a b : same_block a b -> same_block b a.
Proof. intros [H1 H2]. split; auto. apply F2_sym; auto using inst_sym. Qed.
Lemma func_sym a b : same_func a b -> same_func b a.
Proof. intros []; constructor; auto. apply F2_sym; auto using block_sym. Qed.
Lemma code_sym M M' : same_code M M' -> same_code M' M.
Proof. intros [H1 H2]. split; auto. apply F2_sym; auto using func_sym. Qed.

Scheme step_am := Minimality for step Sort Prop with steps_am := Minimality for steps Sort Prop with icall_am := Minimality for icall Sort Prop.
Scheme lasts_am := Minimality for lasts Sort Prop with busy_am := Minimality for busy Sort Prop.

Section Run.
Context {W : Type}.
Variable I : ihost W.
Variable M M' : module_.
Hypothesis SAME : same_code M M'.

Lemma plain_same i i' f m : same_inst i i' -> plain I i f m = plain I i' f m.
Proof. intros [->|(p & q & a & -> & ->)]; reflexivity. Qed.
Lemma fetch_same F F' f i : Forall2 same_block F F' -> fetch F f = Some i -> exists i', fetch F' f = Some i' /\ same_inst i i'.
Proof.
  intros H E. unfold fetch in *. pose proof (F2_nth _ _ _ H (fr_blk f)) as N. destruct (nth_error F _) as [b|]; [|discriminate]. destruct (nth_error F' _) as [b'|]; [|contradiction].
  destruct N as [N _]. pose proof (F2_nth _ _ _ N (fr_idx f)) as N2. rewrite E in N2. destruct (nth_error (b_insts b') _); [eauto|contradiction].
Qed.
Lemma end_same F F' f : Forall2 same_block F F' -> at_end F f = at_end F' f.
Proof.
  intros H. unfold at_end. pose proof (F2_nth _ _ _ H (fr_blk f)) as N. destruct (nth_error F _) as [b|], (nth_error F' _) as [b'|]; try contradiction; auto.
  destruct N as [N ->]. rewrite (F2_len _ _ _ N). reflexivity.
Qed.
Lemma call_same F F' f r v nf va args : Forall2 same_block F F' -> fetch F f = Some (ICall r v nf va args) -> fetch F' f = Some (ICall r v nf va args).
Proof. intros H E. destruct (fetch_same F F' f _ H E) as (i' & E' & [<-|(p & q & a & X & _)]); [exact E'|discriminate]. Qed.
Lemma def_same g : match definition_of g (m_funcs M), definition_of g (m_funcs M') with
  | Some f, Some f' => same_func f f' | None, None => True | _, _ => False end.
Proof.
  destruct SAME as [_ H]. induction H as [|f f' l l' H HF IH]; cbn; auto. rewrite (sf_name _ _ H). destruct (String.eqb _ g); auto.
  pose proof (sf_blocks _ _ H) as B. destruct (f_blocks f) eqn:E, (f_blocks f') eqn:E'; try solve [inversion B]; auto.
Qed.
Lemma enter_same f f' args : same_func f f' -> enter f args = enter f' args.
Proof. intros H. unfold enter. pose proof (sf_params _ _ H) as L. destruct (f_params f), (f_params f'); try discriminate; reflexivity. Qed.

Lemma icall_same g args m w r : icall I M g args m w r -> icall I M' g args m w r.
Proof.
  apply (icall_am W I M (fun F x y => forall F', Forall2 same_block F F' -> step I M' F' x y) (fun F x y => forall F', Forall2 same_block F F' -> steps I M' F' x y)
    (fun g args m w r => icall I M' g args m w r)).
  - intros F i f m0 w0 f' m' E P F' H. destruct (fetch_same F F' f i H E) as (i' & E' & S). eapply st_plain; eauto. rewrite <- (plain_same i i' _ _ S). exact P.
  - intros. eapply st_call; eauto using call_same.
  - intros. eapply st_exit; eauto using call_same.
  - intros F v z f m0 w0 E P F' H. eapply st_ret; eauto. rewrite <- (end_same F F' f H). exact E.
  - intros F b f m0 w0 E F' H. eapply st_br; eauto. rewrite <- (end_same F F' f H). exact E.
  - intros F v bt bf z f m0 w0 E P F' H. eapply st_condbr; eauto. rewrite <- (end_same F F' f H). exact E.
  - intros F v d l z f m0 w0 E P F' H. eapply st_switch; eauto. rewrite <- (end_same F F' f H). exact E.
  - intros. apply steps_refl.
  - intros. eapply steps_step; eauto.
  - intros g0 a0 m0 w0 fn fr z m' w' D E _ IH. pose proof (def_same g0) as H. rewrite D in H. destruct (definition_of g0 (m_funcs M')) as [fn'|] eqn:D'; [|contradiction].
    eapply ic_return; eauto. { rewrite <- (enter_same fn fn' _ H). exact E. } apply IH. apply H.
  - intros g0 a0 m0 w0 fn fr z w' D E _ IH. pose proof (def_same g0) as H. rewrite D in H. destruct (definition_of g0 (m_funcs M')) as [fn'|] eqn:D'; [|contradiction].
    eapply ic_exit; eauto. { rewrite <- (enter_same fn fn' _ H). exact E. } apply IH. apply H.
  - intros g0 a0 m0 w0 r0 D E. pose proof (def_same g0) as H. rewrite D in H. destruct (definition_of g0 (m_funcs M')) eqn:D'; [contradiction|]. apply ic_outside; auto.
Qed.
Lemma step_same F F' x y : Forall2 same_block F F' -> step I M F x y -> step I M' F' x y.
Proof.
  intros H S. inversion S; subst.
  - match goal with E : fetch F _ = Some _ |- _ => destruct (fetch_same F F' _ _ H E) as (i' & E' & X) end. eapply st_plain; eauto. rewrite <- (plain_same i i' _ _ X). assumption.
  - eapply st_call; eauto using call_same, icall_same.
  - eapply st_exit; eauto using call_same, icall_same.
  - eapply st_ret; eauto. rewrite <- (end_same F F' _ H). assumption.
  - eapply st_br; eauto. rewrite <- (end_same F F' _ H). assumption.
  - eapply st_condbr; eauto. rewrite <- (end_same F F' _ H). assumption.
  - eapply st_switch; eauto. rewrite <- (end_same F F' _ H). assumption.
Qed.
Lemma busy_same n g args m w : busy I M n g args m w -> busy I M' n g args m w.
Proof.
  apply (busy_am W I M (fun n F x => forall F', Forall2 same_block F F' -> lasts I M' n F' x) (fun n g args m w => busy I M' n g args m w)).
  - intros. apply la_now.
  - intros. eapply la_step; eauto using step_same.
  - intros. eapply la_call; eauto using call_same.
  - intros. apply bu_now.
  - intros k g0 a0 m0 w0 fn fr D E _ IH. pose proof (def_same g0) as H. rewrite D in H. destruct (definition_of g0 (m_funcs M')) as [fn'|] eqn:D'; [|contradiction].
    eapply bu_in; eauto. { rewrite <- (enter_same fn fn' _ H). exact E. } apply IH. apply H.
Qed.
End Run.
