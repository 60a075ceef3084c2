(** * IRSem: what the generated code does
    An operational semantics of the fragment of LLVM IR of IR.v, following the
    LLVM language reference, on the memory of SpecSem.v. Words are the signed
    representatives of the 64-bit patterns; pointers are words. What LLVM calls
    undefined behaviour or poison has no step.
    Simplifications: a call passes its arguments as a list of words whatever
    the function type at the call site (the C conventions for variadic
    functions, which the compiler relies on at expressions.go:722-765); the
    va_list object is part of the frame and not of the memory. *)
From Coq Require Import List Ascii String ZArith Bool.
From Verif Require Import Base IR SpecSem.
Import ListNotations.
Open Scope Z_scope.

(** [i_sym]: addresses of the symbols given by the linker; [i_fun]: the function
    symbol at an address; [i_place]: addresses chosen by alloca; [i_ext]: the
    effect of the functions outside the module. *)
Record ihost (W : Type) := mkIHost {
  i_place : memory -> Z -> option Z;
  i_sym : string -> Z;
  i_fun : Z -> option string;
  i_ext : string -> list Z -> memory -> W -> option (xres W)
}.
Arguments i_place {W}. Arguments i_sym {W}. Arguments i_fun {W}. Arguments i_ext {W}.

(** The state of an active function: current block and instruction, previous
    block, registers, fixed parameter, variadic arguments, and those not yet
    fetched by va_arg. *)
Record frame := mkFrame {
  fr_blk : nat;
  fr_idx : nat;
  fr_prev : nat;
  fr_reg : nat -> option Z;
  fr_par : option Z;
  fr_more : list Z;
  fr_va : list Z
}.
Definition set_reg (r : nat) (z : Z) (f : frame) : frame :=
  mkFrame (fr_blk f) (fr_idx f) (fr_prev f) (fun x => if Nat.eqb x r then Some z else fr_reg f x) (fr_par f) (fr_more f) (fr_va f).
Definition set_va (l : list Z) (f : frame) : frame :=
  mkFrame (fr_blk f) (fr_idx f) (fr_prev f) (fr_reg f) (fr_par f) (fr_more f) l.
Definition next (f : frame) : frame :=
  mkFrame (fr_blk f) (S (fr_idx f)) (fr_prev f) (fr_reg f) (fr_par f) (fr_more f) (fr_va f).
Definition goto_blk (b : nat) (f : frame) : frame :=
  mkFrame b 0 (fr_blk f) (fr_reg f) (fr_par f) (fr_more f) (fr_va f).

(** Integer instructions. *)
Definition ir_bin (op : binop) (a b : Z) : option Z :=
  match op with
  | OAdd => Some (wrap64 (a + b))
  | OSub => Some (wrap64 (a - b))
  | OMul => Some (wrap64 (a * b))
  | OSDiv => if (b =? 0) || ((a =? - 2 ^ 63) && (b =? -1)) then None else Some (Z.quot a b)
  | OSRem => if (b =? 0) || ((a =? - 2 ^ 63) && (b =? -1)) then None else Some (Z.rem a b)
  | OAnd => Some (Z.land a b)
  | OOr => Some (Z.lor a b)
  | OShl => if (0 <=? b) && (b <? 64) then Some (wrap64 (a * 2 ^ b)) else None
  | OAShr => if (0 <=? b) && (b <? 64) then Some (a / 2 ^ b) else None
  end.
Definition ir_cmp (p : pred) (a b : Z) : bool :=
  match p with
  | PEQ => a =? b | PNE => negb (a =? b)
  | PSLT => a <? b | PSLE => a <=? b | PSGT => b <? a | PSGE => b <=? a
  end.

Section Machine.
Context {W : Type}.
Variable I : ihost W.
Variable M : module_.

(** The word an operand stands for. *)
Definition operand (f : frame) (v : value) : option Z :=
  match v with
  | VInt z => Some z
  | VReg r => fr_reg f r
  | VGlob n => Some (i_sym I n)
  | VFun n _ _ => Some (i_sym I n)
  | VParam _ => fr_par f
  end.
Fixpoint operands (f : frame) (l : list value) : option (list Z) :=
  match l with
  | [] => Some []
  | v :: r => match operand f v, operands f r with Some z, Some zs => Some (z :: zs) | _, _ => None end
  end.
(** The incoming value of a phi for the previous block. *)
Fixpoint incoming (prev : nat) (l : list (value * nat)) : option value :=
  match l with
  | [] => None
  | (v, b) :: r => if Nat.eqb b prev then Some v else incoming prev r
  end.

(** The instructions other than calls. *)
Definition def (r : nat) (o : option Z) (f : frame) (m : memory) : option (frame * memory) :=
  match o with Some z => Some (set_reg r z f, m) | None => None end.
Definition plain (i : inst) (f : frame) (m : memory) : option (frame * memory) :=
  match i with
  | IAlloca r n => match alloc (i_place I) m (8 * n) with
                   | Some (a, m') => Some (set_reg r a f, m')
                   | None => None
                   end
  | IAllocaVA r => Some (set_reg r 0 f, m)
  | ILoad r p => match operand f p with Some a => def r (load m a) f m | None => None end
  | IStore v p => match operand f v, operand f p with
                  | Some z, Some a => match store m a z with Some m' => Some (f, m') | None => None end
                  | _, _ => None
                  end
  | IBin r op a b => match operand f a, operand f b with
                     | Some x, Some y => def r (ir_bin op x y) f m
                     | _, _ => None
                     end
  | ICmp r p a b => match operand f a, operand f b with
                    | Some x, Some y => def r (Some (if ir_cmp p x y then 1 else 0)) f m
                    | _, _ => None
                    end
  | IZExt r a | IIntToPtr r a | IPtrToInt r a | IBitCast r a => def r (operand f a) f m
  | IGepWord r p i => match operand f p, operand f i with
                      | Some a, Some n => def r (Some (wrap64 (a + 8 * n))) f m
                      | _, _ => None
                      end
  | IGepArr r p sz k => match operand f p with Some a => def r (Some (a + sz * k)) f m | None => None end
  | ICall _ _ _ _ _ => None
  | IVaStart _ => Some (set_va (fr_more f) f, m)
  | IVaArg r _ => match fr_va f with z :: l => Some (set_reg r z (set_va l f), m) | [] => None end
  | IVaEnd _ => Some (f, m)
  | IPhi r l => match incoming (fr_prev f) l with Some v => def r (operand f v) f m | None => None end
  end.

(** The function called by an operand. *)
Definition callee (f : frame) (v : value) : option string :=
  match v with
  | VFun n _ _ => Some n
  | _ => match operand f v with Some a => i_fun I a | None => None end
  end.
(** The block a switch goes to. *)
Fixpoint choose (z : Z) (d : nat) (l : list (Z * nat)) : nat :=
  match l with
  | [] => d
  | (y, b) :: r => if z =? y then b else choose z d r
  end.

Definition fetch (F : list block) (f : frame) : option inst :=
  match nth_error F (fr_blk f) with Some b => nth_error (b_insts b) (fr_idx f) | None => None end.
Definition at_end (F : list block) (f : frame) : option term :=
  match nth_error F (fr_blk f) with
  | Some b => if Nat.eqb (fr_idx f) (List.length (b_insts b)) then b_term b else None
  | None => None
  end.
(** The frame of a call. *)
Definition enter (fn : func) (args : list Z) : option frame :=
  match f_params fn with
  | [] => Some (mkFrame 0 0 0 (fun _ => None) None args [])
  | _ :: _ => match args with
              | z :: r => Some (mkFrame 0 0 0 (fun _ => None) (Some z) r [])
              | [] => None
              end
  end.
(** The function a module defines under a symbol. *)
Fixpoint definition_of (g : string) (l : list func) : option func :=
  match l with
  | [] => None
  | fn :: r => if String.eqb (f_name fn) g then match f_blocks fn with [] => definition_of g r | _ => Some fn end
               else definition_of g r
  end.

(** Configurations inside a call: running, returned, or the process has ended. *)
Inductive cfg : Type :=
| Run (f : frame) (m : memory) (w : W)
| Done (z : Z) (m : memory) (w : W)
| Gone (z : Z) (w : W).

Inductive step : list block -> cfg -> cfg -> Prop :=
| st_plain F i f m w f' m' : fetch F f = Some i -> plain i f m = Some (f', m') ->
    step F (Run f m w) (Run (next f') m' w)
| st_call F r v nf va args f m w g zs z m' w' : fetch F f = Some (ICall r v nf va args) ->
    callee f v = Some g -> operands f args = Some zs -> icall g zs m w (XRet z m' w') ->
    step F (Run f m w) (Run (next (set_reg r z f)) m' w')
| st_exit F r v nf va args f m w g zs z w' : fetch F f = Some (ICall r v nf va args) ->
    callee f v = Some g -> operands f args = Some zs -> icall g zs m w (XExit z w') ->
    step F (Run f m w) (Gone z w')
| st_ret F v z f m w : at_end F f = Some (TRet v) -> operand f v = Some z -> step F (Run f m w) (Done z m w)
| st_br F b f m w : at_end F f = Some (TBr b) -> step F (Run f m w) (Run (goto_blk b f) m w)
| st_condbr F v bt bf z f m w : at_end F f = Some (TCondBr v bt bf) -> operand f v = Some z ->
    step F (Run f m w) (Run (goto_blk (if z =? 0 then bf else bt) f) m w)
| st_switch F v d l z f m w : at_end F f = Some (TSwitch v d l) -> operand f v = Some z ->
    step F (Run f m w) (Run (goto_blk (choose z d l) f) m w)
with steps : list block -> cfg -> cfg -> Prop :=
| steps_refl F x : steps F x x
| steps_step F x y z : step F x y -> steps F y z -> steps F x z
with icall : string -> list Z -> memory -> W -> xres W -> Prop :=
| ic_return g args m w fn fr z m' w' : definition_of g (m_funcs M) = Some fn -> enter fn args = Some fr ->
    steps (f_blocks fn) (Run fr m w) (Done z m' w') -> icall g args m w (XRet z (pop m m') w')
| ic_exit g args m w fn fr z w' : definition_of g (m_funcs M) = Some fn -> enter fn args = Some fr ->
    steps (f_blocks fn) (Run fr m w) (Gone z w') -> icall g args m w (XExit z w')
| ic_outside g args m w r : definition_of g (m_funcs M) = None -> i_ext I g args m w = Some r ->
    icall g args m w r.

(** [lasts n F x]: from [x] the machine can make at least [n] steps, those of
    the functions it calls included. [busy n g args m w]: the same for a call. *)
Inductive lasts : nat -> list block -> cfg -> Prop :=
| la_now F x : lasts 0 F x
| la_step n F x y : step F x y -> lasts n F y -> lasts (S n) F x
| la_call n F r v nf va args f m w g zs : fetch F f = Some (ICall r v nf va args) ->
    callee f v = Some g -> operands f args = Some zs -> busy n g zs m w -> lasts (S n) F (Run f m w)
with busy : nat -> string -> list Z -> memory -> W -> Prop :=
| bu_now g args m w : busy 0 g args m w
| bu_in n g args m w fn fr : definition_of g (m_funcs M) = Some fn -> enter fn args = Some fr ->
    lasts n (f_blocks fn) (Run fr m w) -> busy (S n) g args m w.

Lemma steps_trans F x y z : steps F x y -> steps F y z -> steps F x z.
Proof. induction 1; auto. intros. eapply steps_step; eauto. Qed.
Lemma steps_one F x y : step F x y -> steps F x y.
Proof. intros. eapply steps_step; eauto. apply steps_refl. Qed.
Scheme lasts_mind := Induction for lasts Sort Prop with busy_mind := Induction for busy Sort Prop.
Lemma lasts_le_all : forall k F x, lasts k F x -> forall n, (n <= k)%nat -> lasts n F x.
Proof.
  apply (lasts_mind (fun k F x _ => forall n, (n <= k)%nat -> lasts n F x)
                    (fun k g args m w _ => forall n, (n <= k)%nat -> busy n g args m w)).
  - intros F x n L. inversion L. constructor.
  - intros k F x y S _ IH [|n] L; [constructor|]. eapply la_step; eauto. apply IH. apply le_S_n. exact L.
  - intros k F r v nf va args f m w g zs E1 E2 E3 _ IH [|n] L; [constructor|]. eapply la_call; eauto. apply IH. apply le_S_n. exact L.
  - intros g args m w n L. inversion L. constructor.
  - intros k g args m w fn fr E1 E2 _ IH [|n] L; [constructor|]. eapply bu_in; eauto. apply IH. apply le_S_n. exact L.
Qed.
Lemma lasts_le n k F x : (n <= k)%nat -> lasts k F x -> lasts n F x.
Proof. eauto using lasts_le_all. Qed.
Lemma busy_le n k g args m w : (n <= k)%nat -> busy k g args m w -> busy n g args m w.
Proof.
  intros L B. destruct n; [constructor|]. inversion B; subst; [inversion L|]. eapply bu_in; eauto. eapply lasts_le; [|eassumption]. apply le_S_n. exact L.
Qed.
Lemma lasts_steps n F x y : steps F x y -> lasts n F y -> lasts n F x.
Proof. induction 1; auto. intros K. eapply lasts_le; [|eapply la_step; eauto]. auto. Qed.
(** At least one step. *)
Definition steps1 (F : list block) (x z : cfg) : Prop := exists y, step F x y /\ steps F y z.
Lemma steps1_steps F x z : steps1 F x z -> steps F x z.
Proof. intros (y & S1 & S2). eapply steps_step; eauto. Qed.
Lemma steps_steps1 F x y z : steps F x y -> steps1 F y z -> steps1 F x z.
Proof.
  intros S1 S2. inversion S1; subst; auto. match goal with K : step F x ?y0 |- _ => exists y0 end. split; auto.
  eapply steps_trans; eauto. apply steps1_steps. auto.
Qed.
Lemma steps1_trans F x y z : steps1 F x y -> steps F y z -> steps1 F x z.
Proof. intros (u & S1 & S2) S3. exists u. split; auto. eapply steps_trans; eauto. Qed.
Lemma lasts_more n F x z : steps1 F x z -> lasts n F z -> lasts (S n) F x.
Proof. intros (y & S1 & S2) K. eapply la_step; eauto. eapply lasts_steps; eauto. Qed.
End Machine.
