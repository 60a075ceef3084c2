(** * SemEx: machines that link the reference semantics and the code, and a concrete one for examples *)
From Coq Require Import List Ascii String ZArith NArith Lia Bool.
From Verif Require Import Base IR Builder Syntax SpecSem IRSem SpecLink SimFun.
Import ListNotations.
Open Scope string_scope.
Open Scope list_scope.
Open Scope Z_scope.

(** The name of a symbol. *)
Definition unglobal (s : string) : option string :=
  if String.eqb s "main" then Some "main"
  else match s with
       | String "b" (String "." x) => if String.eqb x "main" then None else Some x
       | _ => None
       end.
Lemma unglobal_spec s x : unglobal s = Some x -> s = globalName x.
Proof.
  unfold unglobal. destruct (String.eqb_spec s "main") as [->|N]; [intros E; injection E as <-; reflexivity|].
  destruct s as [|a [|b s]]; [discriminate| |].
  - destruct a as [[] [] [] [] [] [] [] []]; discriminate.
  - destruct a as [[] [] [] [] [] [] [] []]; try discriminate. destruct b as [[] [] [] [] [] [] [] []]; try discriminate.
    destruct (String.eqb_spec s "main") as [->|N2]; [discriminate|]. intros E. injection E as <-. unfold globalName.
    destruct (String.eqb_spec s "main"); [contradiction|reflexivity].
Qed.
Lemma unglobal_name x : unglobal (globalName x) = Some x.
Proof.
  unfold unglobal, globalName. destruct (String.eqb_spec x "main") as [->|N]; [reflexivity|].
  change ("b." ++ x)%string with (String "b" (String "." x)). destruct (String.eqb_spec (String "b" (String "." x)) "main"); [discriminate|].
  destruct (String.eqb_spec x "main"); [contradiction|reflexivity].
Qed.
(** For every machine on which the functions of the module are found at their
    addresses, there is a reference machine linked to it. *)
Definition host_of {W} (I : ihost W) : host W :=
  mkHost W (i_place I) (fun x => i_sym I (globalName x)) (fun k => i_sym I (".str." ++ dec k))
    (fun a => match i_fun I a with Some s => unglobal s | None => None end) (fun x => i_ext I (globalName x)).
Theorem host_of_linked {W} (I : ihost W) M : (forall f x, In f (m_funcs M) -> f_name f = globalName x -> i_fun I (i_sym I (f_name f)) = Some (f_name f)) ->
  linked (host_of I) I M.
Proof.
  intros K. constructor; cbn; auto. intros a x E. destruct (i_fun I a) as [s|]; [|discriminate]. apply unglobal_spec in E. subst. auto.
Qed.

(** A machine on which the symbols [tbl] are at the addresses 1024, 2048 ...,
    automatic storage is allocated upwards from 1048576, above all other storage, and the outside
    function [putchar] adds its argument to the output, [exit] ends the process. *)
Fixpoint index (s : string) (l : list string) : Z :=
  match l with [] => 0 | x :: r => if String.eqb s x then 0 else 1 + index s r end.
Definition machine (tbl : list string) : ihost (list Z) :=
  mkIHost (list Z)
    (fun m n => Some (8 * ((fold_right (fun r b => Z.max (fst r + snd r) b) 1048576 (m_stack m ++ m_static m) + 7) / 8)))
    (fun s => 1024 * (1 + index s tbl))
    (fun a => if (0 <? a) && (a mod 1024 =? 0) then nth_error tbl (Z.to_nat (a / 1024 - 1)) else None)
    (fun g args m w => if String.eqb g "b.putchar" then match args with z :: _ => Some (XRet 0 m (w ++ [z])) | [] => None end
                       else if String.eqb g "b.exit" then Some (XExit 0 w) else None).
(** No memory in use, except the symbols with their words. *)
Definition empty_mem : memory := mkMem (fun _ => None) [] [].
Definition word_at (a z : Z) (m : memory) : memory :=
  mkMem (fun x => if (a <=? x) && (x <? a + 8) then Some ((z / 256 ^ (x - a)) mod 256) else m_byte m x) (m_stack m) ((a, 8) :: m_static m).
Definition found {W} (I : ihost W) (M : module_) : bool :=
  forallb (fun f => match unglobal (f_name f), i_fun I (i_sym I (f_name f)) with Some _, Some s => String.eqb s (f_name f) | None, _ => true | _, _ => false end) (m_funcs M).
Lemma found_linked {W} (I : ihost W) M : found I M = true -> linked (host_of I) I M.
Proof.
  intros K. apply host_of_linked. intros f x Hf E. unfold found in K. rewrite forallb_forall in K. specialize (K f Hf).
  rewrite E, unglobal_name, <- E in K.
  destruct (i_fun I (i_sym I (f_name f))) as [s|]; [|discriminate]. apply String.eqb_eq in K. congruence.
Qed.
Definition apart_names (M : module_) : bool := forallb (fun y => negb (inb y (map f_name (m_funcs M)))) (map g_name (m_globals M)).
Lemma apart_separate M : apart_names M = true -> separate M.
Proof.
  intros K y A B. unfold apart_names in K. rewrite forallb_forall in K. specialize (K y A). apply negb_true_iff in K.
  assert (E : inb y (map f_name (m_funcs M)) = true); [|congruence]. unfold inb. apply existsb_exists. exists y. split; auto. apply String.eqb_refl.
Qed.
Ltac by_machine := apply found_linked; vm_compute; reflexivity.
Ltac by_names := apply apart_separate; vm_compute; reflexivity.
Definition module_for (s : list ascii) : module_ :=
  match Decl.compile s false with Ok m _ => m | _ => mkModule [] [] end.
