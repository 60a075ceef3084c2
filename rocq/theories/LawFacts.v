(** * LawFacts: the laws of SpecLaws.v hold of the meaning of programs *)
From Coq Require Import List Ascii String ZArith Bool Lia.
From Verif Require Import Base Lexer IR Builder Expr Syntax SpecSem SemShift SpecLaws.
Import ListNotations.
Open Scope Z_scope.

Lemma eq_sym_ {W A} (x y : act W A) : equal x y -> equal y x.
Proof. intros H m w. symmetry. apply H. Qed.
Lemma eq_trans_ {W A} (x y z : act W A) : equal x y -> equal y z -> equal x z.
Proof. intros H K m w. rewrite H. apply K. Qed.
Lemma wrap_add a b : wrap64 (a + wrap64 b) = wrap64 (a + b).
Proof.
  unfold wrap64. replace (a + ((b + 2 ^ 63) mod 2 ^ 64 - 2 ^ 63) + 2 ^ 63) with (a + (b + 2 ^ 63) mod 2 ^ 64) by lia.
  rewrite Zplus_mod_idemp_r. f_equal. f_equal. lia.
Qed.
Lemma wrap_mod a b : a mod 2 ^ 64 = b mod 2 ^ 64 -> wrap64 a = wrap64 b.
Proof. intros E. unfold wrap64. f_equal. rewrite <- (Zplus_mod_idemp_l a), <- (Zplus_mod_idemp_l b), E. reflexivity. Qed.
Lemma mod_wrap a : wrap64 a mod 2 ^ 64 = a mod 2 ^ 64.
Proof. unfold wrap64. rewrite Zminus_mod_idemp_l. f_equal. lia. Qed.
Lemma wrap_sum a b c : wrap64 (wrap64 (a + b) + c) = wrap64 (a + wrap64 (b + c)).
Proof. apply wrap_mod. rewrite <- Zplus_mod_idemp_l, mod_wrap, Zplus_mod_idemp_l, <- (Zplus_mod_idemp_r (wrap64 (b + c))), mod_wrap, Zplus_mod_idemp_r. f_equal. lia. Qed.
Lemma wrap_prod a b c : wrap64 (wrap64 (a * b) * c) = wrap64 (a * wrap64 (b * c)).
Proof. apply wrap_mod. rewrite <- Zmult_mod_idemp_l, mod_wrap, Zmult_mod_idemp_l, <- (Zmult_mod_idemp_r (wrap64 (b * c))), mod_wrap, Zmult_mod_idemp_r. f_equal. ring. Qed.
Lemma wrap_distr a b c : wrap64 (a * wrap64 (b + c)) = wrap64 (wrap64 (a * b) + wrap64 (a * c)).
Proof.
  apply wrap_mod. rewrite <- (Zmult_mod_idemp_r (wrap64 (b + c))), mod_wrap, Zmult_mod_idemp_r.
  rewrite (Zplus_mod (wrap64 (a * b))), !mod_wrap, <- Zplus_mod. f_equal. ring.
Qed.
Lemma grouped_ok op a b c : grouped op -> exists u v, arith op a b = Some u /\ arith op b c = Some v /\ arith op u c = arith op a v.
Proof.
  intros []; cbn [arith]; do 2 eexists; (split; [reflexivity|]); (split; [reflexivity|]); f_equal;
    [apply wrap_sum|apply wrap_prod|symmetry; apply Z.land_assoc|symmetry; apply Z.lor_assoc].
Qed.
Lemma pure_lits e : pure e -> lits e = 0.
Proof. induction 1; cbn [lits]; lia. Qed.
Lemma lits_same :
  (forall e e', valE e e' -> lits e = lits e') /\ (forall e e', adrE e e' -> lits e = lits e') /\ (forall l l', valA l l' -> litsA l = litsA l').
Proof. apply val_ind3; intros; unfold add in *; cbn [lits litsA] in *; repeat match goal with K : pure _ |- _ => apply pure_lits in K end; lia. Qed.
Lemma swapped_ok op op' a b : swapped op op' -> operate op a b = operate op' b a.
Proof.
  intros []; cbn [operate arith]; unfold compared;
    first [reflexivity|rewrite (Z.add_comm a b); reflexivity|rewrite (Z.mul_comm a b); reflexivity|rewrite (Z.land_comm a b); reflexivity
          |rewrite (Z.lor_comm a b); reflexivity|rewrite (Z.eqb_sym a b); reflexivity].
Qed.
Lemma litsS_same : (forall s s', meanS s s' -> litsS s = litsS s') /\ (forall l l', meanL l l' -> litsL l = litsL l').
Proof.
  apply mean_ind2; intros; cbn [litsS litsL lits] in *; repeat match goal with K : valE _ _ |- _ => apply lits_same in K end; lia.
Qed.
Lemma after_same : (forall s s', meanS s s' -> forall sc, after sc s = after sc s') /\ (forall l l', meanL l l' -> forall sc, afterL sc l = afterL sc l').
Proof. apply mean_ind2; intros; cbn [after afterL]; congruence. Qed.
Lemma cases_same : (forall s s', meanS s s' -> cases s = cases s') /\ (forall l l', meanL l l' -> casesL l = casesL l').
Proof. apply mean_ind2; intros; cbn [cases casesL]; congruence. Qed.
Lemma truth_not b : truth (truth b =? 0) = truth (negb b).
Proof. destruct b; reflexivity. Qed.
Lemma opposite_ok p p' a b : opposite p p' -> truth (compared p a b =? 0) = compared p' a b /\ truth (compared p' a b =? 0) = compared p a b.
Proof.
  unfold compared. rewrite !truth_not. intros [| |]; split; f_equal; rewrite ?negb_involutive; auto;
    apply eq_iff_eq_true; rewrite ?negb_true_iff, ?Z.ltb_lt, ?Z.leb_le, ?Z.ltb_ge, ?Z.leb_gt; lia.
Qed.

Section Same.
Context {W : Type}.
Variable H : host W.
Variable locals : bool.
Variable call : string -> list Z -> act W Z.
Ltac ext := intros m w; unfold step_by; unfold andthen, maybe, done, stuck, load_, store_.
Ltac cases_of := repeat match goal with
  | |- ?x = ?x => reflexivity
  | K : load ?m ?a = _ |- context [load ?m ?a] => rewrite K; cbn beta iota
  | K : operate ?m ?a ?b = _ |- context [operate ?m ?a ?b] => rewrite K; cbn beta iota
  | K : store ?m ?a ?b = _ |- context [store ?m ?a ?b] => rewrite K; cbn beta iota
  | |- context [match rvalue ?a ?b ?c ?d ?e ?f ?g ?m ?w with _ => _ end] => destruct (rvalue a b c d e f g m w); cbn beta iota; try reflexivity
  | |- context [match lvalue ?a ?b ?c ?d ?e ?f ?g ?m ?w with _ => _ end] => destruct (lvalue a b c d e f g m w); cbn beta iota; try reflexivity
  | |- context [match load ?m ?a with _ => _ end] => destruct (load m a) eqn:?; cbn beta iota; try reflexivity
  | |- context [match arith ?o ?a ?b with _ => _ end] => destruct (arith o a b); cbn beta iota; try reflexivity
  | |- context [match operate ?o ?a ?b with _ => _ end] => destruct (operate o a b) eqn:?; cbn beta iota; try reflexivity
  | |- context [match store ?m ?a ?b with _ => _ end] => destruct (store m a b) eqn:?; cbn beta iota; try reflexivity
  end.
Ltac rcases := repeat match goal with
  | |- context [match rvalue ?a ?b ?c ?d ?e ?f ?g ?m ?w with _ => _ end] => destruct (rvalue a b c d e f g m w); cbn beta iota; try reflexivity
  | |- context [match lvalue ?a ?b ?c ?d ?e ?f ?g ?m ?w with _ => _ end] => destruct (lvalue a b c d e f g m w); cbn beta iota; try reflexivity
  end.
Section Env.
Variable sc : scope.
Variable r : env.
Local Notation rv := (rvalue H locals call sc r).
Local Notation lv := (lvalue H locals call sc r).
(** The value of an expression without effects. *)
Definition obind {A} (o : option A) (f : A -> option Z) : option Z := match o with Some a => f a | None => None end.
Lemma pure_value e : pure e -> exists f, forall k m w, rv k e m w = match f m with Some v => Val v m w | None => Stuck end.
Proof.
  induction 1 as [z|x|a P [f F]|a i P [f F] Q [g G]|a P [f F]|x|a i P [f F] Q [g G]|a P [f F]|a P [f F]|a P [f F]|op a b P [f F] Q [g G]|a b c P [f F] Q [g G] R [h J]].
  - exists (fun _ => Some z). reflexivity.
  - cbn [rvalue]. unfold variable. destruct (inb x (sc_loc sc)).
    + exists (fun m => obind (r x) (load m)). intros k m w. unfold andthen, maybe, load_. destruct (r x); reflexivity.
    + destruct (inb x (sc_ext sc)); [exists (fun m => load m (h_addr H x)); reflexivity|exists (fun _ => Some (h_addr H x)); reflexivity].
  - exists f. intros k. apply F.
  - exists (fun m => obind (f m) (fun p => obind (g m) (fun n => load m (wrap64 (p + 8 * n))))). intros k m w. cbn [rvalue]. fold rv. unfold andthen, load_.
    rewrite F. unfold obind. destruct (f m); [|reflexivity]. rewrite G. destruct (g m); reflexivity.
  - exists (fun m => obind (f m) (load m)). intros k m w. cbn [rvalue]. fold rv. unfold andthen, load_. rewrite F. unfold obind. destruct (f m); reflexivity.
  - cbn [rvalue lvalue]. unfold variable. destruct (inb x (sc_loc sc)).
    + exists (fun m => r x). intros k m w. unfold maybe. destruct (r x); reflexivity.
    + destruct (inb x (sc_ext sc)); [exists (fun m => Some (h_addr H x)); reflexivity|exists (fun _ => None); reflexivity].
  - exists (fun m => obind (f m) (fun p => obind (g m) (fun n => Some (wrap64 (p + 8 * n))))). intros k m w. cbn [rvalue lvalue]. fold rv. unfold andthen.
    rewrite F. unfold obind. destruct (f m); [|reflexivity]. rewrite G. destruct (g m); reflexivity.
  - exists f. intros k. apply F.
  - exists (fun m => obind (f m) (fun v => Some (truth (v =? 0)))). intros k m w. cbn [rvalue]. fold rv. unfold andthen. rewrite F. unfold obind. destruct (f m); reflexivity.
  - exists (fun m => obind (f m) (fun v => Some (wrap64 (- v)))). intros k m w. cbn [rvalue]. fold rv. unfold andthen. rewrite F. unfold obind. destruct (f m); reflexivity.
  - exists (fun m => obind (f m) (fun p => obind (g m) (fun n => operate op p n))). intros k m w. cbn [rvalue]. fold rv. unfold andthen, maybe.
    rewrite F. unfold obind. destruct (f m); [|reflexivity]. rewrite G. destruct (g m); [|reflexivity]. destruct (operate op z z0); reflexivity.
  - exists (fun m => obind (f m) (fun v => if v =? 0 then h m else g m)). intros k m w. cbn [rvalue]. fold rv. unfold andthen.
    rewrite F. unfold obind. destruct (f m); [|reflexivity]. destruct (z =? 0); [apply J|apply G].
Qed.
Lemma same_expr :
  (forall e e', valE e e' -> forall k, equal (rv k e) (rv k e')) /\
  (forall e e', adrE e e' -> forall k, equal (lv k e) (lv k e')) /\
  (forall l l', valA l l' -> forall k, equal (rvalues H locals call sc r k l) (rvalues H locals call sc r k l')).
Proof.
  apply val_ind3; intros; unfold add.
  all: try solve [apply equal_refl | apply eq_sym_; auto | eapply eq_trans_; eauto].
  all: try match goal with |- equal (rvalue _ _ _ _ _ _ (ECall _ _)) _ => idtac | _ => cbn [rvalue lvalue rvalues lits]; rewrite ?Z.add_0_r end.
  all: try solve [apply equal_refl].
  all: repeat match goal with K : valE _ _ |- _ => pose proof (proj1 lits_same _ _ K); revert K | K : adrE _ _ |- _ => pose proof (proj1 (proj2 lits_same) _ _ K); revert K
    | K : valA _ _ |- _ => pose proof (proj2 (proj2 lits_same) _ _ K); revert K end; intros;
    repeat match goal with K : lits _ = lits _ |- _ => rewrite <- K; clear K end.
  all: try solve [repeat first [apply equal_andthen; [|intros ?] | apply equal_refl | solve [auto] | match goal with |- equal (match ?x with _ => _ end) _ => destruct x end]].
  all: fold (rvalue H locals call sc r); fold (lvalue H locals call sc r).
  - ext; rcases; cbn [operate arith]; rewrite wrap_add; reflexivity.
  - ext; rcases; cbn [operate arith]; rewrite wrap_add; reflexivity.
  - ext; rcases.
  - ext; cbn [operate]; cases_of.
  - match goal with K : pure b |- _ => destruct (pure_value b K) as [f F] end. unfold variable. ext.
    destruct (inb x (sc_loc sc)); [destruct (r x); try reflexivity|destruct (inb x (sc_ext sc)); try reflexivity];
      cbn beta iota; rewrite F; destruct (f m) eqn:FM; cbn beta iota; match goal with |- context [load m ?p] => destruct (load m p) end; cbn beta iota; rewrite ?F, ?FM; cases_of.
  - match goal with K : pure a |- _ => destruct (pure_value a K) as [f F] end. match goal with K : pure b |- _ => destruct (pure_value b K) as [g G] end.
    ext. rewrite F, G. destruct (f m) eqn:FM, (g m) eqn:GM; cbn beta iota; rewrite ?F, ?G, ?FM, ?GM; try reflexivity. match goal with K : swapped _ _ |- _ => rewrite (swapped_ok _ _ _ _ K) end. reflexivity.
  - ext. rewrite !Z.add_assoc. cbn [operate]. destruct (rv k a m w) as [x1 m1 w1| | |]; cbn beta iota; try reflexivity.
    destruct (rv (k + lits a) b m1 w1) as [x2 m2 w2| | |]; cbn beta iota; try reflexivity.
    match goal with K : grouped op |- _ => pose proof (fun x3 => grouped_ok op x1 x2 x3 K) as GO end.
    destruct (GO 0) as (u & _ & E & _). rewrite E. cbn beta iota.
    destruct (rv (k + lits a + lits b) c m2 w2) as [x3 m3 w3| | |]; cbn beta iota; try reflexivity.
    destruct (GO x3) as (u' & v & E' & E2 & E3). assert (u' = u) by congruence. subst u'. rewrite E2. cbn beta iota. rewrite E3. reflexivity.
  - ext. rcases. cbn [operate arith]. unfold Z.sub. rewrite wrap_add. reflexivity.
  - ext. rcases. cbn [operate arith]. destruct (Z.leb_spec 0 n); [|lia]. destruct (Z.ltb_spec n 64); [|lia]. cbn [andb]. rewrite Z.shiftl_mul_pow2 by lia. reflexivity.
  - ext. destruct (pure_value a p) as [f F]. destruct (pure_value b p0) as [g G]. destruct (pure_value c p1) as [h J]. cbn [operate arith].
    rewrite F. destruct (f m) as [x1|] eqn:FM; cbn beta iota; [|reflexivity]. rewrite G. destruct (g m) as [x2|]; cbn beta iota; [|reflexivity].
    rewrite J, F, FM. cbn beta iota. rewrite J. destruct (h m) as [x3|]; cbn beta iota; [|reflexivity]. rewrite wrap_distr. reflexivity.
  - ext. rcases. match goal with K : lits b = 0, J : lits c = 0 |- _ => rewrite K, J end. rewrite Z.add_0_r. destruct (a0 =? 0); reflexivity.
  - ext. rcases. cbn [operate]. unfold compared. destruct (a0 =? 0); reflexivity.
  - ext. destruct (Z.eqb_spec z 0); [contradiction|reflexivity].
  - ext. cbn. match goal with K : lits b = 0 |- _ => rewrite K end. rewrite Z.add_0_r. reflexivity.
  - ext. rcases. cbn [operate]. rewrite (proj1 (opposite_ok _ _ _ _ o)). reflexivity.
  - ext. rcases. cbn [operate]. rewrite (proj2 (opposite_ok _ _ _ _ o)). reflexivity.
  - ext. rewrite e. reflexivity.
  - rewrite !call_named. destruct (called H locals sc r x); repeat (apply equal_andthen; [first [apply equal_refl|auto]|intros ?]); apply equal_refl.
  - destruct (call_or locals sc r H call k f l) as [[x ->]|E1]; [destruct (n x eq_refl)|]. destruct (call_or locals sc r H call k f' l') as [[x ->]|E2]; [destruct (n0 x eq_refl)|].
    rewrite E1, E2, <- H2. repeat (apply equal_andthen; [auto|intros ?]); apply equal_refl.
  - ext; rcases; cbn [operate arith]; rewrite wrap_add; reflexivity.
Qed.
End Env.
Lemma same_R sc r k e e' : valE e e' -> equal (rvalue H locals call sc r k e) (rvalue H locals call sc r k e').
Proof. intros V. apply (proj1 (same_expr sc r)). exact V. Qed.
(** A test for being different from 0 is no test at all. *)
Lemma same_test {A} sc r k a (f g : act W A) :
  equal (andthen (rvalue H locals call sc r k (EBin (CCmp PNE) a (EInt 0))) (fun v => if v =? 0 then f else g))
        (andthen (rvalue H locals call sc r k a) (fun v => if v =? 0 then f else g)).
Proof. cbn [rvalue]. fold (rvalue H locals call sc r). ext. rcases. cbn [operate]. unfold compared. destruct (a0 =? 0); reflexivity. Qed.
Lemma same_loop sc k a (body : env -> act W (flow * env)) : forall n r,
  equal (loop n (fun r => rvalue H locals call sc r k (EBin (CCmp PNE) a (EInt 0))) body r) (loop n (fun r => rvalue H locals call sc r k a) body r).
Proof.
  induction n as [|n IH]; intros r; [apply equal_refl|]. cbn [loop]. eapply eq_trans_; [apply same_test|].
  apply equal_andthen; [apply equal_refl|]. intros v. destruct (v =? 0); [apply equal_refl|]. apply equal_andthen; [apply equal_refl|].
  intros [f r']. destruct f; try apply equal_refl. apply IH.
Qed.
Variable fuel : nat.
Ltac same_lits := repeat match goal with
  | K : valE ?e ?e' |- context [lits ?e'] => rewrite <- (proj1 lits_same e e' K)
  | K : meanS ?s ?s' |- context [litsS ?s'] => rewrite <- (proj1 litsS_same s s' K)
  | K : meanS ?s ?s' |- context [after ?sc ?s'] => rewrite <- (proj1 after_same s s' K sc)
  | K : meanS ?s ?s' |- context [cases ?s'] => rewrite <- (proj1 cases_same s s' K)
  end.
Lemma same_stmt :
  (forall s s', meanS s s' -> forall sc k t r, equal (exec H locals call fuel sc k s t r) (exec H locals call fuel sc k s' t r)) /\
  (forall l l', meanL l l' -> forall sc k t r, equal (execL H locals call fuel sc k l t r) (execL H locals call fuel sc k l' t r)).
Proof.
  apply mean_ind2; intros.
  all: try solve [apply equal_refl | apply eq_sym_; auto | eapply eq_trans_; eauto].
  all: cbn [exec execL]; cbv zeta; same_lits.
  all: try solve [repeat first [apply equal_andthen; [|intros ?] | apply same_R; assumption | apply equal_refl | solve [auto]
      | apply shift_loop; [intros; apply same_R; assumption|solve [auto]]
      | match goal with |- equal (match ?x with _ => _ end) _ => destruct x end
      | match goal with |- equal (let '(_, _) := ?x in _) _ => destruct x end ]].
  - destruct t as [[x|z]|]; try apply equal_refl. cbn [rvalue after litsS]. fold (rvalue H locals call sc r). ext. rcases. destruct (a0 =? 0); reflexivity.
  - destruct t; [apply equal_refl|]. cbn [rvalue]. fold (lvalue H locals call sc r). ext. cases_of.
  - cbn [lits]. rewrite Z.add_0_r. destruct t as [[x|z]|]; try apply equal_refl. apply same_test.
  - cbn [lits]. rewrite Z.add_0_r. destruct t as [[x|z]|]; try apply equal_refl. apply same_test.
  - cbn [lits]. rewrite Z.add_0_r. destruct t as [[x|z]|]; try apply equal_refl; [|apply same_loop].
    apply equal_andthen; [apply equal_refl|]. intros [f r']. destruct f; try apply equal_refl; apply same_loop.
Qed.
Lemma same_run sc k s s' : meanS s s' -> forall n t r, equal (run H locals call fuel n sc k s t r) (run H locals call fuel n sc k s' t r).
Proof.
  intros S. induction n as [|n IH]; intros t r; [apply equal_refl|]. cbn [run].
  apply equal_andthen; [apply (proj1 same_stmt), S|]. intros [f r']. destruct f; try apply equal_refl. apply IH.
Qed.
Lemma same_invoke n ps s s' k args : meanS s s' -> equal (invoke H locals call fuel n ps s k args) (invoke H locals call fuel n ps s' k args).
Proof.
  intros S m w. unfold invoke.
  rewrite (equal_andthen (parameters H ps args (fun _ => None)) (parameters H ps args (fun _ => None))
    (fun r => run H locals call fuel n (mkScope (rev ps) []) k s None r)
    (fun r => run H locals call fuel n (mkScope (rev ps) []) k s' None r)); auto.
  - apply equal_refl.
  - intros r. apply same_run. exact S.
Qed.
End Same.

(** The same function is found in both programs. *)
Inductive same_found : option (list string * stmt * Z) -> option (list string * stmt * Z) -> Prop :=
| sf_none : same_found None None
| sf_some ps s s' k : meanS s s' -> same_found (Some (ps, s, k)) (Some (ps, s', k)).
Lemma same_defined ds ds' : same_meaning ds ds' -> forall k x o o', same_found o o' -> same_found (defined k ds x o) (defined k ds' x o').
Proof.
  induction 1 as [|d d' r r' D _ IH]; intros k x o o' S; [exact S|]. cbn [defined].
  assert (E : litsD d = litsD d') by (destruct D as [| |y ps s s' M]; cbn [litsD]; auto; apply litsS_same, M). rewrite <- E. apply IH.
  destruct D as [| |y ps s s' M]; auto. destruct (String.eqb y x); [constructor; exact M|exact S].
Qed.
Theorem same_calls {W} (H : host W) locals ds ds' : same_meaning ds ds' -> forall n x args, equal (calls H locals ds n x args) (calls H locals ds' n x args).
Proof.
  intros S. induction n as [|n IH]; intros x args; [apply equal_refl|]. cbn [calls].
  destruct (same_defined ds ds' S 0 x None None sf_none) as [|ps s s' k M]; [apply equal_refl|].
  eapply eq_trans_; [apply same_invoke; exact M|].
  apply (shift_invoke H H locals k (k + litsS s') 0); auto; try lia.
Qed.
