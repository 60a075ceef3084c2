(** * Names: dotted names, used to tell block and symbol names apart *)
From Coq Require Import List Ascii String ZArith NArith Lia Bool.
From Verif Require Import Base Lexer SpecLex LexerFacts IR Builder DriverModes Syntax ParseGen.
Import ListNotations.
Open Scope Z_scope.

(** No dot in a string. *)
Definition nodot (s : string) : Prop := ~ In "."%char (list_ascii_of_string s).

Lemma las_app a b : list_ascii_of_string (a ++ b) = (list_ascii_of_string a ++ list_ascii_of_string b)%list.
Proof. induction a; cbn; congruence. Qed.
Lemma las_inj a b : list_ascii_of_string a = list_ascii_of_string b -> a = b.
Proof. intros H. rewrite <- (string_of_list_ascii_of_string a), <- (string_of_list_ascii_of_string b). congruence. Qed.

(** Parts joined by dots. *)
Fixpoint join (l : list string) : string :=
  match l with
  | [] => ""
  | [x] => x
  | x :: r => (x ++ "." ++ join r)%string
  end.
Lemma join_cons x y l : join (x :: y :: l) = (x ++ "." ++ join (y :: l))%string.
Proof. reflexivity. Qed.

Lemma nodot_split a b x y : nodot a -> nodot b -> (a ++ "." ++ x)%string = (b ++ "." ++ y)%string -> a = b /\ x = y.
Proof.
  unfold nodot. revert b. induction a as [|c a IH]; intros [|d b] HA HB H; cbn in *.
  - injection H as ->. auto.
  - injection H as <- _. exfalso. auto.
  - injection H as -> _. exfalso. auto.
  - injection H as -> H. destruct (IH b) as [-> ->]; auto.
Qed.
Lemma nodot_dot a b x : nodot a -> a <> (b ++ "." ++ x)%string.
Proof. intros H ->. apply H. rewrite las_app. apply in_or_app. right. left. auto. Qed.
Lemma join_inj l : forall m, Forall nodot l -> Forall nodot m -> l <> [] -> m <> [] -> join l = join m -> l = m.
Proof.
  induction l as [|x l IH]; intros [|y m] HL HM N1 N2 E; try congruence.
  inversion HL; inversion HM; subst. destruct l as [|x2 l], m as [|y2 m].
  - cbn in E. congruence.
  - rewrite join_cons in E. exfalso. eapply (nodot_dot x); eauto.
  - rewrite join_cons in E. exfalso. eapply (nodot_dot y); eauto.
  - rewrite !join_cons in E. apply nodot_split in E; auto. destruct E as [-> E]. f_equal. apply IH; auto; congruence.
Qed.

Lemma nodot_dec z : nodot (dec z).
Proof. apply dec_no_dot. Qed.
Definition dotb (s : string) : bool := existsb (fun c => Ascii.eqb c ".") (list_ascii_of_string s).
Lemma nodot_b s : dotb s = false -> nodot s.
Proof.
  unfold dotb, nodot. intros H K. assert (existsb (fun c => Ascii.eqb c ".") (list_ascii_of_string s) = true); [|congruence].
  apply existsb_exists. exists "."%char. auto.
Qed.
Lemma utf8_nodot c : ident_char c -> ~ In "."%char (utf8 c).
Proof.
  intros H K. assert (E : forallb (fun n => let c := ascii_of_nat n in negb (IsIdent c) || negb (existsb (fun d => Ascii.eqb d ".") (utf8 c))) (seq 0 256) = true) by (vm_compute; reflexivity).
  rewrite forallb_forall in E. specialize (E (nat_of_ascii c)). cbv zeta in E. rewrite ascii_nat_embedding in E.
  assert (I : IsIdent c = true) by (apply IsIdent_ident; auto). rewrite I in E.
  assert (X : existsb (fun d => Ascii.eqb d ".") (utf8 c) = true) by (apply existsb_exists; exists "."%char; auto).
  rewrite X in E. cbn [negb orb] in E. assert (false = true); [|discriminate]. apply E. apply in_seq.
  pose proof (nat_ascii_bounded c). lia.
Qed.
Lemma nodot_name n : name_ok n -> nodot n.
Proof.
  intros (id & H & ->). unfold nodot, go_string. rewrite list_ascii_of_string_of_list_ascii.
  intros K. apply in_flat_map in K. destruct K as (c & Hc & K). rewrite Forall_forall in H. apply (utf8_nodot c); auto.
Qed.
