(** * Runtime: model of the run-time library runtime/*.c *)
From Coq Require Import List Ascii String ZArith NArith Lia Bool.
From Verif Require Import Base.
Import ListNotations.
Open Scope Z_scope.

(** What a read from standard input delivers: one byte, or nothing (end of
    file or an error). Used by runtime/read.c:11. *)
Inductive rd : Type := RdByte (c : ascii) | RdNone.

(** The process as the library sees it: byte memory (addresses are taken
    modulo 2^64), the variable [b_fout] (runtime/writeb.c:6), what standard input
    will deliver (end of file for ever after the list), and the write system
    calls made so far: file descriptor and bytes, in order. *)
Record world := mkWorld {
  w_mem : Z -> ascii;
  w_fout : Z;
  w_in : list rd;
  w_out : list (Z * list ascii)
}.

(** Outcome of a C function: normal return, process exit, a store or load
    outside a local array, or a model loop bound reached (both are excluded by
    theorems). *)
Inductive cres (A : Type) : Type :=
| Done (a : A) (w : world)
| Exited (status : Z) (w : world)
| OutOfBounds
| LoopBound.
Arguments Done {A} a w.
Arguments Exited {A} status w.
Arguments OutOfBounds {A}.
Arguments LoopBound {A}.

Definition R (A : Type) : Type := world -> cres A.
Definition rret {A} (a : A) : R A := fun w => Done a w.
Definition rbind {A B} (m : R A) (f : A -> R B) : R B :=
  fun w => match m w with
           | Done a w' => f a w'
           | Exited s w' => Exited s w'
           | OutOfBounds => OutOfBounds
           | LoopBound => LoopBound
           end.
Declare Scope r_scope.
Delimit Scope r_scope with r.
Notation "x <-- m ;; k" := (rbind m (fun x => k))
  (at level 61, m at next level, right associativity) : r_scope.
Notation "m >> k" := (rbind m (fun _ => k))
  (at level 61, right associativity) : r_scope.
Open Scope r_scope.

(** ** Local arrays: [char buf[N]], cells undefined until stored. *)
Definition buffer := list (option ascii).
Definition new_buf (n : nat) : buffer := repeat None n.

(** [buf[p] = c]; [None] if [p] is outside the array. C primitive. *)
Definition store_buf (b : buffer) (p : Z) (c : ascii) : option buffer :=
  if (0 <=? p) && (p <? Z.of_nat (List.length b)) then
    Some (firstn (Z.to_nat p) b ++ Some c :: skipn (S (Z.to_nat p)) b)
  else None.

(** The [n] bytes at [p]; [None] if they are not all inside and stored. *)
Fixpoint all_some (b : buffer) : option (list ascii) :=
  match b with
  | [] => Some []
  | Some c :: r => match all_some r with Some l => Some (c :: l) | None => None end
  | None :: _ => None
  end.
Definition slice_buf (b : buffer) (p n : Z) : option (list ascii) :=
  if (0 <=? p) && (0 <=? n) && (p + n <=? Z.of_nat (List.length b)) then
    all_some (firstn (Z.to_nat n) (skipn (Z.to_nat p) b))
  else None.

(** ** System calls (runtime/x86_64.h, aarch64.h, riscv64.h: the wrapper
    passes its arguments on). The kernel's result is not modelled for writes:
    no caller in the library looks at it, except nwrite's which returns it. *)
Definition sys_write (fd : Z) (bs : list ascii) : R unit :=
  fun w => Done tt (mkWorld (w_mem w) (w_fout w) (w_in w) (w_out w ++ [(fd, bs)])).

Definition get_fout : R Z := fun w => Done (w_fout w) w.

(** Memory access through a [char *]. *)
Definition peek (a : Z) : R ascii := fun w => Done (w_mem w (u64 a)) w.
Definition poke (a : Z) (c : ascii) : R unit :=
  fun w => Done tt (mkWorld (fun x => if x =? u64 a then c else w_mem w x)
                            (w_fout w) (w_in w) (w_out w)).

(** Value of a [char] as an integer: [char] is signed on x86_64 and on macOS,
    unsigned on Linux for ARM64 and RISC-V; the model takes it as a parameter. *)
Definition char_val (signed_char : bool) (c : ascii) : Z :=
  if signed_char && (128 <=? code c) then code c - 256 else code c.

(** [b_char], runtime/char.c:6-14. *)
Definition b_char (sc : bool) (s i : Z) : R Z :=
  c <-- peek (s + i) ;; rret (char_val sc c).

(** [b_lchar], runtime/lchar.c:6-15. *)
Definition b_lchar (s i chr : Z) : R unit := poke (s + i) (byte_of chr).

(** [b_exit], runtime/exit.c:6-9. *)
Definition b_exit : R unit := fun w => Exited 0 w.

(** [b_flush], runtime/flush.c:3-6. *)
Definition b_flush : R unit := rret tt.

(** [b_read], runtime/read.c:7-22. *)
Definition b_read (sc : bool) : R Z :=
  fun w =>
    match w_in w with
    | [] => Done 4 w
    | RdNone :: r => Done 4 (mkWorld (w_mem w) (w_fout w) r (w_out w))
    | RdByte c :: r =>
        let v := char_val sc c in
        Done (if (0 <? v) && (v <=? 127) then v else 0)
             (mkWorld (w_mem w) (w_fout w) r (w_out w))
    end.

(** The loop of runtime/write.c:13-19; [k] iterations are left ([len] = 8 - k),
    [input] is the shifted word, [b] the array and [p] the index of [p]. *)
Fixpoint write_loop (k : nat) (input : Z) (b : buffer) (p : Z) : option (buffer * Z) :=
  match k with
  | O => Some (b, p)
  | S k' =>
      let byte := byte_of (input / 2 ^ 56) in
      let input' := u64 (input * 2 ^ 8) in
      if negb (code byte =? 0) || negb (p =? 0) || (k' =? 0)%nat then
        match store_buf b p byte with
        | Some b' => write_loop k' input' b' (p + 1)
        | None => None
        end
      else write_loop k' input' b p
  end.

(** [b_write], runtime/write.c:6-21. *)
Definition b_write (ch : Z) : R unit :=
  match write_loop 8 (u64 ch) (new_buf 8) 0 with
  | None => fun _ => OutOfBounds
  | Some (b, p) =>
      match slice_buf b 0 p with
      | None => fun _ => OutOfBounds
      | Some bs => f <-- get_fout ;; sys_write (f + 1) bs
      end
  end.

(** [b_writeb], runtime/writeb.c:11-14: the first byte of the word in memory,
    which is its low byte on the (little-endian) supported targets. *)
Definition b_writeb (c : Z) : R unit :=
  f <-- get_fout ;; sys_write (f + 1) [byte_of c].

(** [b_nwrite], runtime/nwrite.c:8-17, on memory; its result is the kernel's
    and not modelled. A negative count (a huge size_t for the kernel) makes the
    kernel fail; the model then writes nothing. *)
Fixpoint bytes_at (m : Z -> ascii) (a : Z) (n : nat) : list ascii :=
  match n with O => [] | S n' => m (u64 a) :: bytes_at m (a + 1) n' end.
Definition b_nwrite (file buffer count : Z) : R unit :=
  fun w => sys_write file (bytes_at (w_mem w) buffer (Z.to_nat count)) w.

(** The digit loop of runtime/printd.c:18-21. *)
Fixpoint printd_loop (n : nat) (value : Z) (b : buffer) (p : Z) : option (buffer * Z) :=
  match n with
  | O => None
  | S n' =>
      match store_buf b (p - 1) (byte_of (48 + value mod 10)) with
      | None => None
      | Some b' =>
          let value := value / 10 in
          if value =? 0 then Some (b', p - 1) else printd_loop n' value b' (p - 1)
      end
  end.

(** [b_printd], runtime/printd.c:6-28; the array has 2 + 8*3 = 26 bytes. The
    loop bound 27 is never reached: the array would overflow first. *)
Definition b_printd (n : Z) : R unit :=
  let negative := n <? 0 in
  let value := if negative then u64 (1 + (2 ^ 64 - 1 - u64 n)) else u64 n in
  match printd_loop 27 value (new_buf 26) 26 with
  | None => fun _ => OutOfBounds
  | Some (b, p) =>
      match (if negative
             then match store_buf b (p - 1) "-" with Some b' => Some (b', p - 1) | None => None end
             else Some (b, p)) with
      | None => fun _ => OutOfBounds
      | Some (b, p) =>
          match slice_buf b p (26 - p) with
          | None => fun _ => OutOfBounds
          | Some bs => f <-- get_fout ;; sys_write (f + 1) bs
          end
      end
  end.

(** The digit loop of runtime/printo.c:14-17. *)
Fixpoint printo_loop (n : nat) (value : Z) (b : buffer) (p : Z) : option (buffer * Z) :=
  match n with
  | O => None
  | S n' =>
      match store_buf b (p - 1) (byte_of (48 + Z.land value 7)) with
      | None => None
      | Some b' =>
          let value := Z.shiftr value 3 in
          if value =? 0 then Some (b', p - 1) else printo_loop n' value b' (p - 1)
      end
  end.

(** [b_printo], runtime/printo.c:7-20; the array has (64 + 2) / 3 = 22 bytes. *)
Definition b_printo (n : Z) : R unit :=
  match printo_loop 23 (u64 n) (new_buf 22) 22 with
  | None => fun _ => OutOfBounds
  | Some (b, p) =>
      match slice_buf b p (22 - p) with
      | None => fun _ => OutOfBounds
      | Some bs => f <-- get_fout ;; sys_write (f + 1) bs
      end
  end.

(** The %s loop of runtime/printf.c:48-50. *)
Fixpoint prints_loop (n : nat) (sc : bool) (x j : Z) : R unit :=
  match n with
  | O => fun _ => LoopBound
  | S n' =>
      c <-- b_char sc x j ;;
      if c =? 0 then rret tt
      else b_write c >> prints_loop n' sc x (wrap64 (j + 1))
  end.

(** [b_printf], runtime/printf.c:10-63, from the label [loop] with index [i]
    and [ap] arguments fetched; [args] gives the arguments in order (an
    argument that was not passed is an arbitrary word). [x = -x] of the most
    negative word is undefined in C; compiled code wraps, as in the model.
    [n] bounds the iterations. *)
Fixpoint printf_loop (n : nat) (sc : bool) (fmt i : Z) (args : nat -> Z) (ap : nat) : R unit :=
  match n with
  | O => fun _ => LoopBound
  | S n' =>
      c <-- b_char sc fmt i ;;
      let i := wrap64 (i + 1) in
      if c =? 37 then
        c <-- b_char sc fmt i ;;
        let i := wrap64 (i + 1) in
        if c =? 100 then
          let x := args ap in
          (if x <? 0 then b_write 45 >> b_printd (wrap64 (- x)) else b_printd x) >>
          printf_loop n' sc fmt i args (S ap)
        else if c =? 111 then
          let x := args ap in
          (if x <? 0 then b_write 45 >> b_printo (wrap64 (- x)) else b_printo x) >>
          printf_loop n' sc fmt i args (S ap)
        else if c =? 99 then
          b_write (args ap) >> printf_loop n' sc fmt i args (S ap)
        else if c =? 115 then
          prints_loop n' sc (args ap) 0 >> printf_loop n' sc fmt i args (S ap)
        else if c =? 37 then
          b_write 37 >> printf_loop n' sc fmt i args ap
        else
          b_write 37 >> printf_loop n' sc fmt (wrap64 (i - 1)) args ap
      else if c =? 0 then rret tt
      else b_write c >> printf_loop n' sc fmt i args ap
  end.

Definition b_printf (n : nat) (sc : bool) (fmt : Z) (args : nat -> Z) : R unit :=
  printf_loop n sc fmt 0 args 0.

(** [b_start], runtime/start.c:9-15: runs [main] and exits with its value. *)
Definition b_start (main : R Z) : R unit :=
  c <-- main ;; fun w => Exited c w.
