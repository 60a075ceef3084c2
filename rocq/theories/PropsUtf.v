(** * PropsUtf: words, numerals and characters (C93) *)
From Coq Require Import List Ascii String ZArith NArith Lia Bool Decimal DecimalString DecimalZ DecimalPos DecimalFacts.
From Verif Require Import Base Lexer IR Decl SpecLex SpecRt SpecDiag DiagFacts PropsDiag SpecUtf.
Import ListNotations.
Open Scope string_scope.
Open Scope list_scope.
Open Scope Z_scope.

Local Notation "$ s" := (list_ascii_of_string s%string) (at level 1, format "$ s").

(** ** Words *)
Theorem C93_words : forall z, word (wrap64 z) /\ (wrap64 z) mod 2 ^ 64 = z mod 2 ^ 64 /\
  (forall y, word y -> y mod 2 ^ 64 = z mod 2 ^ 64 -> y = wrap64 z).
Proof.
  intros z. assert (P : 0 < 2 ^ 64) by (vm_compute; reflexivity). assert (Q : 2 ^ 64 = 2 * 2 ^ 63) by reflexivity.
  unfold word, wrap64. pose proof (Z.mod_pos_bound (z + 2 ^ 63) (2 ^ 64) P) as B. set (h := 2 ^ 63) in *. set (p := 2 ^ 64) in *. split; [lia|]. split.
  - rewrite Zminus_mod, Z.mod_mod by lia. rewrite <- Zminus_mod. f_equal. lia.
  - intros y Y E. assert (K : (z + h) mod p = y + h); [|lia]. rewrite <- (Z.mod_small (y + h) p) by lia.
    rewrite (Zplus_mod z), <- E, <- Zplus_mod. reflexivity.
Qed.
Print Assumptions C93_words.

(** ** Numerals *)
Lemma pos_value l : forall a, Z.pos (Pos.of_uint_acc l a) = Z.pos a * 10 ^ Z.of_nat (List.length ($(NilEmpty.string_of_uint l))) + positional 10 ($(NilEmpty.string_of_uint l)).
Proof.
  induction l as [|l IH|l IH|l IH|l IH|l IH|l IH|l IH|l IH|l IH|l IH]; intros a; [cbn; lia|..];
    cbn [Pos.of_uint_acc NilEmpty.string_of_uint list_ascii_of_string List.length positional];
    rewrite IH, Nat2Z.inj_succ, Z.pow_succ_r by lia;
    match goal with |- context [code ?c] => let v := eval vm_compute in (code c) in change (code c) with v end;
    rewrite ?Pos2Z.inj_add, ?Pos2Z.inj_mul; lia.
Qed.
Lemma uint_value l : Z.of_uint l = positional 10 ($(NilEmpty.string_of_uint l)).
Proof.
  unfold Z.of_uint. induction l as [|l IH|l IH|l IH|l IH|l IH|l IH|l IH|l IH|l IH|l IH]; [reflexivity|..];
    cbn [Pos.of_uint NilEmpty.string_of_uint list_ascii_of_string List.length positional];
    match goal with |- context [code ?c] => let v := eval vm_compute in (code c) in change (code c) with v end;
    [rewrite IH; lia|..]; cbn [Z.of_N]; rewrite pos_value; lia.
Qed.
Lemma uint_digits l : Forall (fun c => 48 <= code c < 48 + 10) ($(NilEmpty.string_of_uint l)).
Proof. induction l; cbn [NilEmpty.string_of_uint list_ascii_of_string]; constructor; try assumption; vm_compute; split; congruence. Qed.
Lemma normal_numeral l : unorm l = l -> numeral 10 (Z.of_uint l) ($(NilZero.string_of_uint l)).
Proof.
  intros N. assert (NN : l <> Nil) by (intros ->; discriminate N).
  replace (NilZero.string_of_uint l) with (NilEmpty.string_of_uint l) by (destruct l; [destruct NN; reflexivity|reflexivity..]).
  split; [destruct l; [destruct NN; reflexivity|discriminate..]|]. split; [apply uint_digits|]. split; [symmetry; apply uint_value|].
  intros r E. destruct l; cbn in E; try discriminate E. injection E as <-. unfold unorm in N. cbn [nzhead] in N.
  destruct (nzhead l) as [|u|u|u|u|u|u|u|u|u|u] eqn:Z; try discriminate N.
  - injection N as <-. reflexivity.
  - exfalso. revert Z. clear. induction l; cbn; intros Z; try discriminate Z; auto.
Qed.
Theorem C93_numerals : forall z, signed_numeral 10 z ($(dec z)).
Proof.
  intros z. assert (N : norm (Z.to_int z) = Z.to_int z) by (rewrite <- to_of, of_to; reflexivity).
  pose proof (of_to z) as V. unfold signed_numeral, dec. destruct (Z.to_int z) as [u|u] eqn:E.
  - cbn [norm] in N. injection N as N. cbn [Z.of_int] in V. pose proof (normal_numeral u N) as K. rewrite V in K.
    destruct (Z.ltb_spec z 0); [destruct z; discriminate|exact K].
  - cbn [Z.of_int] in V. assert (NU : unorm u = u).
    { cbn [norm] in N. unfold unorm. destruct (nzhead u); congruence. }
    pose proof (normal_numeral u NU) as K. destruct z as [|p|p]; cbn in E; try discriminate E.
    change (Z.neg p <? 0) with true. cbv iota. exists ($(NilZero.string_of_uint u)). split; [reflexivity|].
    replace (- Z.neg p) with (Z.of_uint u) by lia. exact K.
Qed.
Print Assumptions C93_numerals.

(** ** Characters *)
Lemma utf8_of c : utf8_char (utf8 c) (code c).
Proof.
  assert (R : 0 <= code c < 256) by (unfold code; destruct c as [[] [] [] [] [] [] [] []]; cbn; lia).
  unfold utf8. destruct (Z.ltb_spec (code c) 128) as [B|B]; [apply u1; exact B|].
  assert (BY : forall z, 0 <= z < 256 -> byte (byte_of z) = z).
  { intros z K. unfold byte, byte_of. rewrite Z.mod_small by lia. rewrite N_ascii_embedding by lia. lia. }
  pose proof (Z.div_mod (code c) 64 ltac:(lia)) as DM. pose proof (Z.mod_pos_bound (code c) 64 ltac:(lia)) as MB.
  apply u2; unfold trail; rewrite ?BY by lia; lia.
Qed.
Theorem C93_characters : forall c, utf8_char ($(fmt_c c)) (code c).
Proof. intros c. unfold fmt_c. rewrite list_ascii_of_string_of_list_ascii. apply utf8_of. Qed.
Print Assumptions C93_characters.

Lemma text_app a us b vs : utf8_text a us -> utf8_text b vs -> utf8_text (a ++ b) (us ++ vs).
Proof. induction 1 as [|x u bs us H _ IH]; intros K; [exact K|]. rewrite <- app_assoc. cbn [app]. constructor; auto. Qed.
Definition plain (l : list ascii) : Prop := forallb (fun c => code c <? 128) l = true.
Lemma text_plain l : plain l -> utf8_text l (map code l).
Proof.
  unfold plain. induction l as [|c l IH]; cbn [forallb map]; intros H; [constructor|]. apply andb_true_iff in H as (H1 & H2).
  apply (ut_cons [c] (code c)); [|auto]. apply u1. apply Z.ltb_lt in H1. exact H1.
Qed.
Definition valid (l : list ascii) : Prop := exists us, utf8_text l us.
Lemma valid_app a b : valid a -> valid b -> valid (a ++ b).
Proof. intros (u & A) (v & B). exists (u ++ v). apply text_app; auto. Qed.
Lemma valid_str a b : valid ($a) -> valid ($b) -> valid ($(a ++ b)).
Proof.
  intros A B. replace ($(a ++ b)) with ($a ++ $b); [apply valid_app; auto|]. clear. induction a as [|c a IH]; [reflexivity|cbn; congruence].
Qed.
Lemma valid_plain a : plain ($a) -> valid ($a).
Proof. intros H. eexists. apply text_plain, H. Qed.
Lemma valid_char c : valid ($(fmt_c c)).
Proof. exists [code c]. pose proof (ut_cons _ _ [] [] (C93_characters c) ut_nil) as K. rewrite List.app_nil_r in K. exact K. Qed.
Lemma valid_name s x : quotable_name s x -> valid ($x).
Proof.
  intros (rs & _ & -> & _). induction rs as [|c rs IH]; [exists []; constructor|]. cbn [map]. rewrite concat_empty_cons. apply valid_str; [apply valid_char|exact IH].
Qed.
Lemma plain_in l m : Forall (fun x => plain ($x)) l -> In m l -> valid ($m).
Proof. intros H K. rewrite Forall_forall in H. apply valid_plain, H, K. Qed.
(** Every message of the compiler is a text in UTF-8, whatever the bytes of the
    source text are. *)
Theorem C93_messages : forall s f m, compile s f = Err (Msg m) -> exists us, utf8_text ($m) us.
Proof.
  intros s f m E. apply C87_catalogue in E. cbn in E. change (valid ($m)).
  assert (P1 : Forall (fun x => plain ($x)) plain_messages) by (repeat constructor).
  assert (P2 : Forall (fun x => plain ($x)) expectations) by (repeat constructor).
  assert (P3 : Forall (fun x => plain ($x)) alternatives) by (repeat constructor).
  destruct E as [m K|m K|m c K Q|m c K Q|c Q|c Q| | |x Q|x Q]; repeat first [apply valid_str|apply valid_char|exact (plain_in _ _ P1 K)|exact (plain_in _ _ P2 K)|exact (plain_in _ _ P3 K)|exact (valid_name _ _ Q)|apply valid_plain; vm_compute; reflexivity].
Qed.
Print Assumptions C93_messages.

(** A byte 233 (Latin-1 "e" with acute accent) where a statement begins; the
    message quotes it as the two bytes 195 and 169. *)
Definition src93 : list ascii := $"f(){1" ++ [ascii_of_N 233; "}"%char].
Example C93_ex : compile src93 false = Err (Msg (String.concat "" ["expect ';' after expression statement, got '"; string_of_list_ascii [ascii_of_N 195; ascii_of_N 169]; "'"])) /\
  wrap64 (2 ^ 63) = - 2 ^ 63 /\ dec (- 120) = "-120" /\ dec 0 = "0" /\ fmt_c (ascii_of_N 233) = string_of_list_ascii [ascii_of_N 195; ascii_of_N 169].
Proof. vm_compute. auto. Qed.
