(** * Wp: weakest preconditions for the parser monad *)
From Coq Require Import List Ascii String ZArith NArith Lia Bool.
From Verif Require Import Base Lexer LexerFacts SpecLex IR Builder Expr Stmt Decl.
Import ListNotations.
Open Scope Z_scope.
Open Scope m_scope.

(** [wp F m Q s]: [m] run in [s] satisfies [Q] if it succeeds; errors are
    allowed; running out of fuel requires [F]. *)
Definition wp {A} (F : Prop) (m : C A) (Q : A -> st -> Prop) (s : st) : Prop :=
  match m s with
  | Ok a s' => Q a s'
  | Err _ => True
  | Fuel => F
  end.

Lemma wp_bind {A B} (F : Prop) (m : C A) (f : A -> C B) Q s :
  wp F m (fun a s' => wp F (f a) Q s') s -> wp F (bind m f) Q s.
Proof. unfold wp, bind. destruct (m s); auto. Qed.

Lemma wp_mono {A} (F : Prop) (m : C A) (P Q : A -> st -> Prop) s :
  wp F m P s -> (forall a s', P a s' -> Q a s') -> wp F m Q s.
Proof. unfold wp. destruct (m s); auto. Qed.

Lemma wp_ret {A} (F : Prop) (a : A) (Q : A -> st -> Prop) s : Q a s -> wp F (ret a) Q s.
Proof. auto. Qed.

Lemma wp_fail {A} (F : Prop) e (Q : A -> st -> Prop) s : wp F (fail e) Q s.
Proof. exact I. Qed.

Lemma wp_errorf {A} (F : Prop) e (Q : A -> st -> Prop) s : wp F (errorf e) Q s.
Proof. exact I. Qed.

Lemma wp_fuel {A} (F : Prop) (Q : A -> st -> Prop) s : F -> wp F out_of_fuel Q s.
Proof. auto. Qed.

Lemma wp_get (F : Prop) (Q : cstate -> st -> Prop) s : Q (cs s) s -> wp F get Q s.
Proof. auto. Qed.

Lemma wp_modify (F : Prop) f (Q : unit -> st -> Prop) s :
  Q tt (mkSt (lx s) (f (cs s))) -> wp F (modify f) Q s.
Proof. auto. Qed.

Lemma wp_Ok {A} (F : Prop) (m : C A) Q s a s' : wp F m Q s -> m s = Ok a s' -> Q a s'.
Proof. unfold wp. intros H E. rewrite E in H. exact H. Qed.

Lemma wp_intro {A} (F : Prop) (m : C A) (Q : A -> st -> Prop) s :
  (m s = Fuel -> F) -> (forall a s', m s = Ok a s' -> Q a s') -> wp F m Q s.
Proof. unfold wp. destruct (m s); auto. Qed.

(** Lexer methods through [lift]. *)
Lemma wp_lift {A} (F : Prop) (m : L A) (Q : A -> st -> Prop) s :
  (m (lx s) = Fuel -> F) ->
  (forall a l', m (lx s) = Ok a l' -> Q a (mkSt l' (cs s))) ->
  wp F (lift m) Q s.
Proof. unfold wp, lift. destruct (m (lx s)); auto. Qed.
