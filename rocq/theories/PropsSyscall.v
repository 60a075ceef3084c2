(** * PropsSyscall: system calls (C85) *)
From Coq Require Import List Ascii String ZArith Bool Lia.
From Verif Require Import Base Runtime Syscall.
Import ListNotations.
Open Scope string_scope.
Open Scope list_scope.
Open Scope Z_scope.

Lemma lor_class n : 0 <= n < 2 ^ 24 -> Z.lor n 33554432 = n + 2 * 2 ^ 24.
Proof.
  intros R. replace (n + 2 * 2 ^ 24) with (n + 33554432) by reflexivity. symmetry. rewrite Z.add_nocarry_lxor; [apply Z.bits_inj'; intros i I; rewrite Z.lor_spec, Z.lxor_spec|].
  - change 33554432 with (2 ^ 25). rewrite Z.pow2_bits_eqb by lia. destruct (Z.eqb_spec 25 i) as [<-|N]; [|destruct (Z.testbit n i); reflexivity].
    destruct (Z.eq_dec n 0) as [->|N0]; [rewrite Z.bits_0; reflexivity|]. rewrite Z.bits_above_log2; [reflexivity|lia|]. assert (Z.log2 n < 24) by (apply Z.log2_lt_pow2; lia). lia.
  - apply Z.bits_inj'. intros i I. rewrite Z.land_spec, Z.bits_0. change 33554432 with (2 ^ 25). rewrite Z.pow2_bits_eqb by lia. destruct (Z.eqb_spec 25 i) as [<-|N]; [|apply andb_false_r].
    destruct (Z.eq_dec n 0) as [->|N0]; [rewrite Z.bits_0; reflexivity|]. rewrite Z.bits_above_log2; [reflexivity|lia|]. assert (Z.log2 n < 24) by (apply Z.log2_lt_pow2; lia). lia.
Qed.

(** The registers with the operands in them. *)
Definition with_operands (l : list (reg * Z)) (s : reg -> Z) (r : reg) : Z :=
  match find (fun p => String.eqb (fst p) r) l with Some p => snd p | None => s r end.

(** On every target the wrapper makes one system call, the one it is asked for,
    and returns what the kernel returns; there is such an execution whatever the
    other registers hold. *)
Theorem C85_system_call : forall {M} t (K : kernel M) n a1 a2 a3 m, 0 <= n < 2 ^ 24 ->
  (exists z m', calls t K (syscall t n a1 a2 a3) a1 m z m') /\
  forall z m', calls t K (syscall t n a1 a2 a3) a1 m z m' -> z = result_word t (K n a1 a2 a3 m) /\ m' = k_mem (K n a1 a2 a3 m).
Proof.
  intros M t K n a1 a2 a3 m R.
  assert (E : exists a, syscall t n a1 a2 a3 = [a]) by (destruct t; eexists; reflexivity). destruct E as (a & E).
  assert (D : (n + 2 * 2 ^ 24) / 2 ^ 24 = 2 /\ (n + 2 * 2 ^ 24) mod 2 ^ 24 = n /\ n / 2 ^ 24 = 0 /\ n mod 2 ^ 24 = n).
  { rewrite Z.div_add, Z.mod_add, Z.div_small, Z.mod_small by lia. auto. }
  destruct D as (D1 & D2 & D3 & D4). rewrite E. cbn [calls]. split.
  - set (s := with_operands (a_in a) (fun _ => 0)). set (k := K n a1 a2 a3 m).
    set (s' := fun r => if String.eqb r (v_result (conv t)) then result_word t k else if match v_second (conv t) with Some q => String.eqb r q | None => false end then k_second k else s r).
    exists (s' (a_out a)), (k_mem k), s, s', (k_mem k). split; [|auto]. split; [|split].
    + destruct t; injection E as <-; reflexivity.
    + intros r z HI. subst s. destruct t; injection E as <-; cbn in HI; repeat (destruct HI as [HI|HI]; [injection HI as <- <-; reflexivity|]); destruct HI.
    + unfold enters. assert (X : K (s (v_number (conv t)) mod 2 ^ 24) (s (v_arg1 (conv t))) (s (v_arg2 (conv t))) (s (v_arg3 (conv t))) m = k /\ s (v_number (conv t)) / 2 ^ 24 = v_class (conv t)).
      { subst s k. destruct t; injection E as <-; cbn - [Z.lor Z.pow Z.div Z.modulo]; rewrite ?(lor_class n R), ?D1, ?D2, ?D3, ?D4; auto. }
      destruct X as [-> X]. split; [exact X|]. split; [unfold s'; rewrite String.eqb_refl; reflexivity|]. split; [reflexivity|]. split.
      * intros r Q. unfold s'. rewrite Q, String.eqb_refl. destruct (String.eqb_spec r (v_result (conv t))) as [->|_]; [|reflexivity]. destruct t; discriminate Q.
      * intros r N1 N2 N3. unfold s'. destruct (String.eqb_spec r (v_result (conv t))); [congruence|]. destruct (v_second (conv t)) as [q|]; [|reflexivity]. destruct (String.eqb_spec r q); [subst; exfalso; apply N3; reflexivity|reflexivity].
  - intros z m' (s & s' & m1 & (I & O & EN) & -> & ->). unfold enters in EN. destruct EN as (_ & EN & EM & _).
    assert (X : K (s (v_number (conv t)) mod 2 ^ 24) (s (v_arg1 (conv t))) (s (v_arg2 (conv t))) (s (v_arg3 (conv t))) m = K n a1 a2 a3 m).
    { destruct t; injection E as <-; cbn [conv v_number v_arg1 v_arg2 v_arg3]; cbn [a_in] in O;
      repeat match goal with |- context [s ?r] => erewrite (O r) by (cbn; eauto 6) end; unfold syscall_x86; cbn [apple]; rewrite ?(lor_class n R), ?D2, ?D4; reflexivity. }
    rewrite X in EN, EM. split; [|exact EM]. destruct t; injection E as <-; exact EN.
Qed.
Print Assumptions C85_system_call.

(** On Linux the statements tell the compiler of everything that changes: every
    register and all of memory the compiler relies on is as before. *)
Theorem C85_declared : forall {M} t (K : kernel M) n a1 a2 a3 a s m s' m', linux t = true ->
  In a (syscall t n a1 a2 a3) -> executes t K a s m s' m' -> relied a s m s' m'.
Proof.
  intros M t K n a1 a2 a3 a s m s' m' L HI (I & O & (_ & _ & _ & _ & EK)). destruct t; try discriminate L; destruct HI as [<-|[]]; (split; [|discriminate]); intros r N1 N2; apply EK; cbn in *; auto; discriminate.
Qed.
Print Assumptions C85_declared.

(** On macOS this is false: the second result is left in a register the statement
    only names as input. *)
Theorem C85_declared_refuted : forall t, apple t = true -> exists (K : kernel unit) n a1 a2 a3 a s m s' m', 0 <= n < 2 ^ 24 /\ sane K /\
  In a (syscall t n a1 a2 a3) /\ executes t K a s m s' m' /\ ~ relied a s m s' m'.
Proof.
  intros t A. set (K := fun (n a b c : Z) (m : unit) => mkAnswer false 3 0 tt).
  destruct t; try discriminate A.
  - exists K, 4, 1, 4096, 3, (mkAsm "syscall" "rax" [("rax", 33554436); ("rdi", 1); ("rsi", 4096); ("rdx", 3)] ["rcx"; "r11"] true).
    exists (with_operands [("rax", 33554436); ("rdi", 1); ("rsi", 4096); ("rdx", 3)] (fun _ => 0)), tt, (with_operands [("rax", 3); ("rdi", 1); ("rsi", 4096); ("rdx", 0)] (fun _ => 0)), tt.
    split; [lia|]. split; [intros n a b c m; cbn; lia|]. split; [left; reflexivity|]. split.
    + split; [reflexivity|]. split. { intros r z HI. cbn in HI. repeat (destruct HI as [HI|HI]; [injection HI as <- <-; reflexivity|]). destruct HI. }
      split; [reflexivity|]. split; [reflexivity|]. split; [reflexivity|]. split; [intros r Q; injection Q as <-; reflexivity|].
      intros r N1 N2 N3. cbn in N1, N2, N3. unfold with_operands. cbn [find fst snd].
      destruct (String.eqb_spec "rax" r); [congruence|]. destruct (String.eqb_spec "rdi" r); [reflexivity|]. destruct (String.eqb_spec "rsi" r); [reflexivity|]. destruct (String.eqb_spec "rdx" r); [subst; exfalso; apply N3; reflexivity|reflexivity].
    + intros [X _]. specialize (X "rdx" ltac:(discriminate) ltac:(cbn; intuition discriminate)). discriminate X.
  - exists K, 4, 1, 4096, 3, (mkAsm "svc #0x80" "x0" [("x0", 1); ("x1", 4096); ("x2", 3); ("x16", 4)] [] true).
    exists (with_operands [("x0", 1); ("x1", 4096); ("x2", 3); ("x16", 4)] (fun _ => 0)), tt, (with_operands [("x0", 3); ("x1", 0); ("x2", 3); ("x16", 4)] (fun _ => 0)), tt.
    split; [lia|]. split; [intros n a b c m; cbn; lia|]. split; [left; reflexivity|]. split.
    + split; [reflexivity|]. split. { intros r z HI. cbn in HI. repeat (destruct HI as [HI|HI]; [injection HI as <- <-; reflexivity|]). destruct HI. }
      split; [reflexivity|]. split; [reflexivity|]. split; [reflexivity|]. split; [intros r Q; injection Q as <-; reflexivity|].
      intros r N1 N2 N3. cbn in N1, N2, N3. unfold with_operands. cbn [find fst snd].
      destruct (String.eqb_spec "x0" r); [congruence|]. destruct (String.eqb_spec "x1" r); [subst; exfalso; apply N3; reflexivity|]. destruct (String.eqb_spec "x2" r); [reflexivity|]. destruct (String.eqb_spec "x16" r); reflexivity.
    + intros [X _]. specialize (X "x1" ltac:(discriminate) ltac:(cbn; intuition discriminate)). discriminate X.
Qed.
Print Assumptions C85_declared_refuted.

(** On Linux a negative result says that the call failed (so nread and nwrite,
    which return it, tell errors from numbers of bytes). *)
Theorem C85_errors : forall {M} t (K : kernel M) n a1 a2 a3 m z m', 0 <= n < 2 ^ 24 -> linux t = true -> sane K ->
  calls t K (syscall t n a1 a2 a3) a1 m z m' -> (z < 0 <-> k_failed (K n a1 a2 a3 m) = true).
Proof.
  intros M t K n a1 a2 a3 m z m' R L S E. destruct (proj2 (C85_system_call t K n a1 a2 a3 m R) z m' E) as [-> _]. specialize (S n a1 a2 a3 m). cbv zeta in S.
  unfold result_word. rewrite L. cbn [andb]. destruct (k_failed (K n a1 a2 a3 m)); split; intros X; try reflexivity; try lia; discriminate.
Qed.
Print Assumptions C85_errors.
(** On macOS no result is negative: an error cannot be seen. *)
Theorem C85_errors_refuted : forall t, apple t = true -> exists (K : kernel unit) n a1 a2 a3 z m', 0 <= n < 2 ^ 24 /\ sane K /\
  calls t K (syscall t n a1 a2 a3) a1 tt z m' /\ k_failed (K n a1 a2 a3 tt) = true /\ 0 <= z.
Proof.
  intros t A. set (K := fun (n a b c : Z) (m : unit) => mkAnswer true 9 0 tt).
  destruct (proj1 (C85_system_call t K 4 7 4096 3 tt ltac:(lia))) as (z & m' & E). exists K, 4, 7, 4096, 3, z, m'.
  split; [lia|]. split; [intros n a b c m; cbn; lia|]. split; [exact E|]. split; [reflexivity|].
  destruct (proj2 (C85_system_call t K 4 7 4096 3 tt ltac:(lia)) z m' E) as [-> _]. destruct t; try discriminate A; vm_compute; discriminate.
Qed.
Print Assumptions C85_errors_refuted.

(** ** read.c: one byte is asked for, at the address of the variable c *)
(** runtime/read.c:7-22 with the system call; [c] is the byte in the variable
    after the call, which was 0 before. *)
Definition read_result (sc : bool) (z : Z) (c : ascii) : Z :=
  if z =? 1 then if (0 <? char_val sc c) && (char_val sc c <=? 127) then char_val sc c else 0 else 4.
(** What the library's model (Runtime.v) takes as the next input. *)
Definition delivered (k : answer ascii) : rd := if negb (k_failed k) && (k_value k =? 1) then RdByte (k_mem k) else RdNone.
(** On Linux read gives what the model of C44 gives for what the kernel delivers. *)
Theorem C85_read : forall sc t (K : kernel ascii) n p z c m f r o, 0 <= n < 2 ^ 24 -> linux t = true -> sane K ->
  calls t K (syscall t n 0 p 1) 0 zero z c ->
  b_read sc (mkWorld m f (delivered (K n 0 p 1 zero) :: r) o) = Done (read_result sc z c) (mkWorld m f r o).
Proof.
  intros sc t K n p z c m f r o R L S E. destruct (proj2 (C85_system_call t K n 0 p 1 zero R) z c E) as [-> ->]. specialize (S n 0 p 1 zero). cbv zeta in S.
  unfold b_read, delivered, read_result, result_word. rewrite L. cbn [w_in w_mem w_fout w_out andb]. destruct (k_failed (K n 0 p 1 zero)) eqn:F; cbn [negb andb].
  - destruct (Z.eqb_spec (- k_value (K n 0 p 1 zero)) 1); [lia|reflexivity].
  - destruct (Z.eqb_spec (k_value (K n 0 p 1 zero)) 1); reflexivity.
Qed.
Print Assumptions C85_read.
(** On macOS error number 1 is taken for one byte: the result is 0, not 4. *)
Theorem C85_read_refuted : forall sc t, apple t = true -> exists (K : kernel ascii) n p z c, 0 <= n < 2 ^ 24 /\ sane K /\
  calls t K (syscall t n 0 p 1) 0 zero z c /\ delivered (K n 0 p 1 zero) = RdNone /\ read_result sc z c = 0.
Proof.
  intros sc t A. set (K := fun (n a b c : Z) (m : ascii) => mkAnswer true 1 0 m).
  destruct (proj1 (C85_system_call t K 3 0 4096 1 zero ltac:(lia))) as (z & m' & E). exists K, 3, 4096, z, m'.
  split; [lia|]. split; [intros n a b c m; cbn; lia|]. split; [exact E|]. split; [reflexivity|].
  destruct (proj2 (C85_system_call t K 3 0 4096 1 zero ltac:(lia)) z m' E) as [-> ->]. destruct t, sc; try discriminate A; reflexivity.
Qed.
Print Assumptions C85_read_refuted.

(** Cases: write(1, buffer at 4096, 3 bytes) on Linux for x86_64 (number 1); the
    kernel takes them all. *)
Definition taking : kernel (list Z) := fun n a b c m => if n =? 1 then mkAnswer false c 0 (m ++ [a; b; c]) else mkAnswer true 38 0 m.
Example C85_ex : exists z m', calls X86_linux taking (syscall X86_linux 1 1 4096 3) 1 [] z m' /\ z = 3 /\ m' = [1; 4096; 3].
Proof.
  destruct (C85_system_call X86_linux taking 1 1 4096 3 [] ltac:(lia)) as [(z & m' & E) U]. exists z, m'. split; [exact E|]. exact (U z m' E).
Qed.
Definition failing : kernel (list Z) := fun n a b c m => mkAnswer true 9 0 m.
Example C85_errors_ex : sane failing /\ exists m', calls Arm_linux failing (syscall Arm_linux 64 7 4096 3) 7 [] (-9) m'.
Proof.
  split; [intros n a b c m; cbn; lia|]. destruct (C85_system_call Arm_linux failing 64 7 4096 3 [] ltac:(lia)) as [(z & m' & E) U]. exists m'. destruct (U z m' E) as [-> _]. exact E.
Qed.
Definition one_byte : kernel ascii := fun n a b c m => mkAnswer false 1 0 "A"%char.
Example C85_read_ex : sane one_byte /\ exists z c, calls Riscv_linux one_byte (syscall Riscv_linux 63 0 4096 1) 0 zero z c /\ read_result false z c = 65.
Proof.
  split; [intros n a b c m; cbn; lia|]. destruct (C85_system_call Riscv_linux one_byte 63 0 4096 1 zero ltac:(lia)) as [(z & m' & E) U]. exists z, m'. split; [exact E|]. destruct (U z m' E) as [-> ->]. reflexivity.
Qed.
