(** * PropsCalls: what the library functions do in a program (C82)
    C38-C45 are about the C code alone. Here a program calls the functions: the
    arguments are words of the program, memory is its memory, and what is stored
    is seen by the program afterwards. *)
From Coq Require Import List Ascii String ZArith Lia Bool.
From Verif Require Import Base Lexer LexerFacts SpecLex IR Builder Expr Stmt Decl Syntax SpecTree SpecText RenderWf TextTac PropsText PropsSym SpecSem IRSem SpecLink SimFun SimAny SemMono SemEx SemFacts PropsExpr SpecRun PropsStmt PropsGlobal
  SpecRt Runtime RuntimeFacts PrintfFacts PropsRt Process PropsProc Files SpecFiles.
Import ListNotations.
Open Scope string_scope.
Open Scope list_scope.
Open Scope Z_scope.

(** A program whose outside functions are those of the library, on the platform
    [K]. Programs of one file or of several are ([C82_one], [C82_several]). *)
Definition served (K : platform) (H : host os) : Prop :=
  forall x args m o, In x library_names -> h_ext H x args m o = library K (h_addr H "fout") ("b." ++ x)%string args m o.
Lemma not_main x : In x library_names -> globalName x = ("b." ++ x)%string.
Proof. intros HI. unfold globalName. destruct (String.eqb_spec x "main") as [->|]; [|reflexivity]. cbn in HI. intuition discriminate. Qed.
Theorem C82_one : forall K H I M, linked H I M -> with_library K I -> served K H.
Proof.
  intros K H I M LK LIB x args m o HI. rewrite <- (lk_ext _ _ _ LK), (not_main _ HI), (LIB _ _ _ _ HI), <- (lk_addr _ _ _ LK). reflexivity.
Qed.
Print Assumptions C82_one.
Theorem C82_several : forall K H I fs, together H I fs -> with_library K I -> served K H.
Proof.
  intros K H I fs TG LIB x args m o HI. rewrite <- (tg_ext _ _ _ TG), (not_main _ HI), (LIB _ _ _ _ HI), <- (tg_addr _ _ _ TG). reflexivity.
Qed.
Print Assumptions C82_several.

Lemma served_call K H locals ds n x args m o : served K H -> In x library_names -> defined 0 ds x None = None ->
  calls H locals ds (S n) x args m o =
    match library K (h_addr H "fout") ("b." ++ x)%string args m o with
    | Some (XRet z m' o') => Val z m' o' | Some (XExit z o') => Halt z o' | None => Stuck
    end.
Proof. intros SV HI D. cbn [calls]. rewrite D, (SV _ _ _ _ HI). reflexivity. Qed.
Ltac lib SV D := rewrite (served_call _ _ _ _ _ _ _ _ _ SV) by (auto; cbn; tauto); unfold library; cbn [String.eqb Ascii.eqb Bool.eqb append].

(** ** Characters in memory *)
(** The byte [b] as a value of type char. *)
Definition char_of (K : platform) (b v : Z) : Prop :=
  v mod 256 = b /\ -128 <= v < 256 /\ (k_signed K = true -> v < 128) /\ (k_signed K = false -> 0 <= v).
(** [m'] is [m] with the byte [b] at the address [a]. *)
Definition with_byte (m : memory) (a b : Z) (m' : memory) : Prop :=
  m_byte m' a = Some b /\ (forall x, x <> a -> m_byte m' x = m_byte m x) /\ m_stack m' = m_stack m /\ m_static m' = m_static m.

Theorem C82_char : forall K H locals ds n s i rest m o b, served K H -> defined 0 ds "char" None = None ->
  m_byte m (wrap64 (s + i)) = Some b -> 0 <= b < 256 ->
  exists v, calls H locals ds (S n) "char" (s :: i :: rest) m o = Val v m o /\ char_of K b v.
Proof.
  intros K H locals ds n s i rest m o b SV D B R. lib SV D. unfold arg. cbn [nth]. unfold b_char, rbind, peek, rret, view. cbn [w_mem w_fout w_in w_out].
  unfold bytes_of, u64. rewrite SemFacts.wrap64_mod, B. cbn [finish_word]. unfold os_of. cbn [w_in w_out]. eexists. split; [destruct o; reflexivity|].
  unfold char_of, char_val. rewrite code_byte_of. rewrite (Z.mod_small b 256) by lia.
  destruct (k_signed K); cbn [andb]; [destruct (Z.leb_spec 128 b)|]; cbn [andb]; repeat split; intros; try discriminate; try lia; try (apply Z.mod_small; lia).
Qed.
Print Assumptions C82_char.

(** lchar stores the low byte of its argument there and changes nothing else. *)
Theorem C82_lchar : forall K H locals ds n s i c rest m o, served K H -> defined 0 ds "lchar" None = None ->
  accessible m (wrap64 (s + i)) 1 = true ->
  exists z m', calls H locals ds (S n) "lchar" (s :: i :: c :: rest) m o = Val z m' o /\ with_byte m (wrap64 (s + i)) (c mod 256) m'.
Proof.
  intros K H locals ds n s i c rest m o SV D A. lib SV D. unfold arg. cbn [nth]. unfold store_byte. rewrite A. do 2 eexists. split; [reflexivity|].
  unfold with_byte. cbn [m_byte m_stack m_static]. rewrite Z.eqb_refl. repeat split. intros x NE. destruct (Z.eqb_spec x (wrap64 (s + i))); [contradiction|reflexivity].
Qed.
Print Assumptions C82_lchar.
(** Outside all objects it is undefined. *)
Theorem C82_lchar_outside : forall K H locals ds n s i c rest m o, served K H -> defined 0 ds "lchar" None = None ->
  accessible m (wrap64 (s + i)) 1 = false -> calls H locals ds (S n) "lchar" (s :: i :: c :: rest) m o = Stuck.
Proof. intros K H locals ds n s i c rest m o SV D A. lib SV D. unfold arg. cbn [nth]. unfold store_byte. rewrite A. reflexivity. Qed.
Print Assumptions C82_lchar_outside.
(** After [lchar(s,i,c)], [char(s,i)] is the character [c], and [char] of any
    other place, however it is written, is what it was. *)
Theorem C82_stored : forall K H locals ds n s i c rest m o, served K H -> defined 0 ds "lchar" None = None -> defined 0 ds "char" None = None ->
  accessible m (wrap64 (s + i)) 1 = true ->
  exists z m', calls H locals ds (S n) "lchar" (s :: i :: c :: rest) m o = Val z m' o /\
  forall k t j more, 
    ((s + i - (t + j)) mod 2 ^ 64 = 0 -> exists v, calls H locals ds (S k) "char" (t :: j :: more) m' o = Val v m' o /\ char_of K (c mod 256) v /\ (0 <= c < 128 -> v = c)) /\
    ((s + i - (t + j)) mod 2 ^ 64 <> 0 -> m_byte m (wrap64 (t + j)) <> None ->
      exists v, calls H locals ds (S k) "char" (t :: j :: more) m' o = Val v m' o /\ calls H locals ds (S k) "char" (t :: j :: more) m o = Val v m o).
Proof.
  intros K H locals ds n s i c rest m o SV D D2 A. destruct (C82_lchar K H locals ds n s i c rest m o SV D A) as (z & m' & E & B & O & S1 & S2).
  exists z, m'. split; [exact E|]. intros k t j more. split.
  - intros Q. assert (W : wrap64 (t + j) = wrap64 (s + i)).
    { unfold wrap64. replace (s + i + 2 ^ 63) with (t + j + 2 ^ 63 + (s + i - (t + j))) by lia.
      rewrite (Z.add_mod (t + j + 2 ^ 63)), Q, Z.add_0_r, Z.mod_mod by lia. reflexivity. }
    destruct (C82_char K H locals ds k t j more m' o (c mod 256) SV D2) as (v & EV & CV); [rewrite W; exact B|apply Z.mod_pos_bound; lia|].
    exists v. split; [exact EV|]. split; [exact CV|]. intros R. rewrite (Z.mod_small c) in CV by lia. destruct CV as (C1 & C2 & C3 & C4).
    assert (0 <= v \/ v < 0) as [P|P] by lia; [rewrite Z.mod_small in C1 by lia; auto|].
    replace v with (v + 256 + (-1) * 256) in C1 by lia. rewrite Z.mod_add, Z.mod_small in C1 by lia. lia.
  - intros Q N. assert (W : wrap64 (t + j) <> wrap64 (s + i)).
    { intros W. apply Q. unfold wrap64 in W. rewrite Zminus_mod. 
      assert (X : (t + j + 2 ^ 63) mod 2 ^ 64 = (s + i + 2 ^ 63) mod 2 ^ 64) by lia. rewrite <- Zminus_mod.
      replace (s + i - (t + j)) with (s + i + 2 ^ 63 - (t + j + 2 ^ 63)) by lia. rewrite Zminus_mod, X, Z.sub_diag. reflexivity. }
    lib SV D2. lib SV D2. unfold arg. cbn [nth]. unfold b_char, rbind, peek, rret, view. cbn [w_mem w_fout w_in w_out].
    unfold bytes_of, u64. rewrite SemFacts.wrap64_mod, (O _ W). destruct (m_byte m (wrap64 (t + j))); [|contradiction]. cbn [finish_word]. unfold os_of. cbn [w_in w_out].
    eexists. split; destruct o; reflexivity.
Qed.
Print Assumptions C82_stored.

(** ** Printing *)
Theorem C82_writeb : forall K H locals ds n x rest f m o, served K H -> defined 0 ds "writeb" None = None -> load m (h_addr H "fout") = Some f ->
  exists z o' c, calls H locals ds (S n) "writeb" (x :: rest) m o = Val z m o' /\ printed (f + 1) o [c] o' /\ code c = x mod 256.
Proof.
  intros K H locals ds n x rest f m o SV D F. lib SV D. unfold printing. rewrite F. unfold arg. cbn [nth].
  unfold b_writeb, rbind, get_fout, view. cbn [w_fout]. unfold sys_write. cbn [finish w_mem w_fout w_in w_out]. unfold os_of. cbn [w_in w_out].
  do 2 eexists. exists (byte_of x). split; [reflexivity|]. split; [|apply code_byte_of].
  split; [reflexivity|]. cbn [o_out]. eexists. split; [reflexivity|]. split; [repeat constructor|reflexivity].
Qed.
Print Assumptions C82_writeb.
Theorem C82_printd : forall K H locals ds n x rest d f m o, served K H -> defined 0 ds "printd" None = None -> load m (h_addr H "fout") = Some f ->
  word x -> signed_numeral 10 x d -> exists z o', calls H locals ds (S n) "printd" (x :: rest) m o = Val z m o' /\ printed (f + 1) o d o'.
Proof.
  intros K H locals ds n x rest d f m o SV D F W N. lib SV D. unfold printing. rewrite F. unfold arg. cbn [nth].
  destruct (b_printd_spec x (view K f m o) W) as (d' & N' & E). assert (d' = d) by (eapply C40_numeral_unique; eauto). subst d'. rewrite E.
  cbn [finish]. do 2 eexists. split; [reflexivity|]. eapply prints_printed; apply prints_wrote.
Qed.
Print Assumptions C82_printd.
Theorem C82_printo : forall K H locals ds n x rest d f m o, served K H -> defined 0 ds "printo" None = None -> load m (h_addr H "fout") = Some f ->
  numeral 8 (x mod 2 ^ 64) d -> exists z o', calls H locals ds (S n) "printo" (x :: rest) m o = Val z m o' /\ printed (f + 1) o d o'.
Proof.
  intros K H locals ds n x rest d f m o SV D F N. lib SV D. unfold printing. rewrite F. unfold arg. cbn [nth].
  destruct (b_printo_spec x (view K f m o)) as (d' & N' & E). assert (d' = d) by (eapply numeral_unique; eauto; lia). subst d'. rewrite E.
  cbn [finish]. do 2 eexists. split; [reflexivity|]. eapply prints_printed; apply prints_wrote.
Qed.
Print Assumptions C82_printo.
Theorem C82_write : forall K H locals ds n x rest d f m o, served K H -> defined 0 ds "write" None = None -> load m (h_addr H "fout") = Some f ->
  packed x d -> exists z o', calls H locals ds (S n) "write" (x :: rest) m o = Val z m o' /\ printed (f + 1) o d o'.
Proof.
  intros K H locals ds n x rest d f m o SV D F N. lib SV D. unfold printing. rewrite F. unfold arg. cbn [nth].
  destruct (b_write_spec x (view K f m o)) as (d' & N' & E). assert (d' = d) by (eapply packed_unique; eauto). subst d'. rewrite E.
  cbn [finish]. do 2 eexists. split; [reflexivity|]. eapply prints_printed; apply prints_wrote.
Qed.
Print Assumptions C82_write.
(** nwrite writes the bytes of memory from the buffer on, and gives what the
    kernel says. *)
Theorem C82_nwrite : forall K H locals ds n fd b bs rest m o, served K H -> defined 0 ds "nwrite" None = None ->
  (forall i c, nth_error bs i = Some c -> m_byte m (wrap64 (b + Z.of_nat i)) = Some (code c)) ->
  exists o', calls H locals ds (S n) "nwrite" (fd :: b :: Z.of_nat (List.length bs) :: rest) m o = 
    Val (k_written K (fd :: b :: Z.of_nat (List.length bs) :: rest)) m o' /\ printed fd o bs o'.
Proof.
  intros K H locals ds n fd b bs rest m o SV D B. lib SV D. unfold arg. cbn [nth]. unfold b_nwrite, sys_write, view. cbn [w_mem w_fout w_in w_out].
  eexists. split; [reflexivity|]. unfold os_of. cbn [w_in w_out]. split; [reflexivity|]. cbn [o_out]. eexists. split; [reflexivity|]. split; [repeat constructor|].
  cbn [map snd List.concat]. rewrite app_nil_r, Nat2Z.id. clear - B. revert b B. induction bs as [|c bs IH]; intros b B; [reflexivity|].
  cbn [List.length Runtime.bytes_at]. f_equal.
  - unfold bytes_of, u64. rewrite SemFacts.wrap64_mod. specialize (B 0%nat c eq_refl). rewrite Z.add_0_r in B. rewrite B. apply byte_of_code.
  - apply IH. intros i c' E. rewrite <- (B (S i) c' E). f_equal. f_equal. lia.
Qed.
Print Assumptions C82_nwrite.
Theorem C82_flush : forall K H locals ds n args m o, served K H -> defined 0 ds "flush" None = None ->
  exists z, calls H locals ds (S n) "flush" args m o = Val z m o.
Proof. intros K H locals ds n args m o SV D. lib SV D. eexists. destruct o. reflexivity. Qed.
Print Assumptions C82_flush.

(** ** Reading *)
Theorem C82_read : forall K H locals ds n args m o, served K H -> defined 0 ds "read" None = None ->
  exists v, calls H locals ds (S n) "read" args m o = Val v m (mkOs (skipn 1 (o_in o)) (o_out o)) /\ read_value (nth 0 (o_in o) RdNone) v.
Proof.
  intros K H locals ds n args m o SV D. lib SV D.
  destruct (C44_read (k_signed K) 1 (view K 0 m o)) as (vs & w' & E & L & I1 & _ & _ & O & N). cbn [read_times] in E. unfold rbind in E.
  destruct (b_read (k_signed K) (view K 0 m o)) as [v w| | |] eqn:R; try discriminate E. injection E as <- <-.
  exists v. cbn [finish_word]. split; [unfold os_of; rewrite I1, O; reflexivity|]. exact (N 0%nat v eq_refl).
Qed.
Print Assumptions C82_read.
(** nread: the bytes the kernel delivers are in memory from the buffer on; no
    other byte of memory has changed; the result is the kernel's. *)
Theorem C82_nread : forall K H locals ds n fd b count rest m o z bs o', served K H -> defined 0 ds "nread" None = None ->
  k_read K fd count o = (z, bs, o') -> Z.of_nat (List.length bs) <= 2 ^ 64 ->
  (forall i, (i < List.length bs)%nat -> accessible m (wrap64 (b + Z.of_nat i)) 1 = true) ->
  exists m', calls H locals ds (S n) "nread" (fd :: b :: count :: rest) m o = Val z m' o' /\
    (forall i c, nth_error bs i = Some c -> m_byte m' (wrap64 (b + Z.of_nat i)) = Some (code c)) /\
    (forall x, (forall i, (i < List.length bs)%nat -> x <> wrap64 (b + Z.of_nat i)) -> m_byte m' x = m_byte m x) /\
    m_stack m' = m_stack m /\ m_static m' = m_static m.
Proof.
  intros K H locals ds n fd b count rest m o z bs o' SV D R LE A. lib SV D. unfold arg. cbn [nth]. unfold nread. rewrite R.
  assert (G : exists m', store_bytes m b bs = Some m' /\
    (forall i c, nth_error bs i = Some c -> m_byte m' (wrap64 (b + Z.of_nat i)) = Some (code c)) /\
    (forall x, (forall i, (i < List.length bs)%nat -> x <> wrap64 (b + Z.of_nat i)) -> m_byte m' x = m_byte m x) /\
    m_stack m' = m_stack m /\ m_static m' = m_static m).
  { clear - LE A. revert m b LE A. induction bs as [|c bs IH]; intros m b LE A; cbn [store_bytes].
    - exists m. repeat split; auto. intros [|i] c E; discriminate.
    - assert (A0 := A 0%nat ltac:(cbn; lia)). rewrite Z.add_0_r in A0. unfold store_byte. rewrite A0.
      set (m1 := mkMem _ _ _). cbn [List.length] in LE.
      destruct (IH m1 (b + 1)) as (m' & E & B & O & S1 & S2); [lia| |].
      { intros i L. unfold accessible, m1. cbn [m_stack m_static]. specialize (A (S i) ltac:(cbn; lia)). replace (b + 1 + Z.of_nat i) with (b + Z.of_nat (S i)) by lia. exact A. }
      exists m'. split; [exact E|]. split; [|split; [|split; auto]].
      + intros [|i] c' N; cbn [nth_error] in N.
        * injection N as <-. rewrite Z.add_0_r. rewrite O.
          { unfold m1. cbn [m_byte]. rewrite Z.eqb_refl. f_equal. pose proof (code_range c). apply Z.mod_small. lia. }
          intros i L Q. apply (f_equal (fun z => (z + 2 ^ 63) mod 2 ^ 64)) in Q. unfold wrap64 in Q.
          rewrite !Z.sub_add, !Z.mod_mod in Q by lia.
          assert (X : (b + 1 + Z.of_nat i + 2 ^ 63 - (b + 2 ^ 63)) mod 2 ^ 64 = 0) by (rewrite Zminus_mod, <- Q, Z.sub_diag; reflexivity).
          replace (b + 1 + Z.of_nat i + 2 ^ 63 - (b + 2 ^ 63)) with (1 + Z.of_nat i) in X by lia. rewrite Z.mod_small in X by lia. lia.
        * specialize (B i c' N). replace (b + Z.of_nat (S i)) with (b + 1 + Z.of_nat i) by lia. exact B.
      + intros x NE. rewrite O.
        * unfold m1. cbn [m_byte]. destruct (Z.eqb_spec x (wrap64 b)) as [->|]; auto. exfalso. apply (NE 0%nat); [cbn; lia|rewrite Z.add_0_r; reflexivity].
        * intros i L. replace (b + 1 + Z.of_nat i) with (b + Z.of_nat (S i)) by lia. apply NE. cbn. lia. }
  destruct G as (m' & -> & G). exists m'. split; [reflexivity|exact G].
Qed.
Print Assumptions C82_nread.

(** ** A program that copies its input, from its text to what the process does *)
Definition copy_text := $"main(){auto c;while((c=read())!=4)write(c);}".
Definition copy_test := EBin (CCmp PNE) (EParen (EAsg None (EVar "c") (ECall (ECallee "read") ENil))) (EInt 4).
Definition copy_body := SBlock (SCons (SAuto [("c", -1)]) (SCons (SWhile copy_test (SExpr (ECall (ECallee "write") (ECons (EVar "c") ENil)))) SNil)).
Definition copy_tree := [DFunction "main" [] copy_body].
Definition copy_module := module_for copy_text.
Lemma copy_module_of : module_of copy_tree copy_module.
Proof. exists [], copy_text. split; [apply lay_nil|split; [text|vm_compute; reflexivity]]. Qed.
(** What is to be copied, and what is left of the input: read gives 4 at the end
    of the input and for the character of that code; a character of more than 7
    bits is read as the null character. *)
Fixpoint copied (l : list rd) : list ascii :=
  match l with
  | [] | RdNone :: _ => []
  | RdByte c :: r => if code c =? 4 then [] else (if code c <? 128 then c else NUL) :: copied r
  end.
Fixpoint uncopied (l : list rd) : list rd :=
  match l with
  | [] => []
  | RdNone :: r => r
  | RdByte c :: r => if code c =? 4 then r else uncopied r
  end.
Definition copies (fd : Z) (o o' : os) : Prop :=
  o_in o' = uncopied (o_in o) /\ exists l, o_out o' = o_out o ++ l /\ Forall (fun p => fst p = fd) l /\ List.concat (map snd l) = copied (o_in o).
Lemma load_alloc_other m a n b : b + 8 <= a \/ a + n <= b -> 0 <= n -> 
  forall v, load m b = Some v -> load (mkMem (fun x => if (a <=? x) && (x <? a + n) then None else m_byte m x) ((a, n) :: m_stack m) (m_static m)) b = Some v.
Proof.
  intros S N v E. unfold load in *. destruct (word_ok m b) eqn:WO; [|discriminate]. unfold word_ok in *. apply andb_true_iff in WO. destruct WO as [W1 W2].
  unfold accessible in *. cbn [m_stack m_static app existsb m_byte]. rewrite W1, W2, orb_true_r. cbn [andb].
  assert (X : forall k c, (k <= 8)%nat -> c = b + 8 - Z.of_nat k -> word_of (fun x => if (a <=? x) && (x <? a + n) then None else m_byte m x) c k = word_of (m_byte m) c k).
  { induction k as [|k IH]; intros c L EC; [reflexivity|]. cbn [word_of]. rewrite IH by lia.
    destruct (Z.leb_spec a c); destruct (Z.ltb_spec c (a + n)); cbn [andb]; auto. lia. }
  rewrite X by lia. exact E.
Qed.
Section Copy.
Variables (K : platform) (H : host os) (a f : Z).
Hypothesis SV : served K H.
Hypothesis APART : h_addr H "fout" + 8 <= a \/ a + 8 <= h_addr H "fout".
Notation call := (calls H false copy_tree 1).
Notation sc := (mkScope ["c"] []).
Lemma copy_cond r m o v o1 : r "c" = Some a -> call "read" [] m o = Val v m o1 -> word_ok m a = true ->
  exists m1, store m a v = Some m1 /\ rvalue H false call sc r 0 copy_test m o = Val (compared PNE v 4) m1 o1.
Proof.
  intros R E WO. destruct (MemFacts.store_word m a v WO) as [m1 ES]. exists m1. split; [exact ES|].
  unfold copy_test. cbn [rvalue lvalue]. unfold variable, called. cbn [inb existsb sc_loc sc_ext String.eqb Ascii.eqb Bool.eqb orb].
  unfold andthen, maybe. rewrite R. cbn [rvalues]. unfold done. rewrite E. unfold store_. rewrite ES. reflexivity.
Qed.
Lemma copy_stop r m o : r "c" = Some a -> forall o1, call "read" [] m o = Val 4 m o1 -> word_ok m a = true -> copies (f + 1) o o1 ->
  exists m' o', goes H false call (RWhile sc 0 copy_test (RExpr sc 0 (ECall (ECallee "write") (ECons (EVar "c") ENil)))) r m o (Leaves Fall r m' o') /\ copies (f + 1) o o'.
Proof.
  intros R o1 E WO CP. destruct (copy_cond r m o 4 o1 R E WO) as (m1 & _ & EV). exists m1, o1. split; [|exact CP]. eapply go_while_end. exact EV.
Qed.
Lemma copy_loop r : r "c" = Some a -> forall inp m o, o_in o = inp -> word_ok m a = true -> load m (h_addr H "fout") = Some f ->
  exists m' o', goes H false call (RWhile sc 0 copy_test (RExpr sc 0 (ECall (ECallee "write") (ECons (EVar "c") ENil)))) r m o (Leaves Fall r m' o') /\ copies (f + 1) o o'.
Proof.
  intros R inp. induction inp as [|d inp IH]; intros m o EI WO LF;
    destruct (C82_read K H false copy_tree 0 [] m o SV eq_refl) as (v & E & RV); rewrite EI in RV, E; cbn [nth read_value skipn] in RV, E.
  - subst v. eapply copy_stop; eauto. split; [rewrite EI; reflexivity|]. exists []. rewrite app_nil_r, EI. repeat split; constructor.
  - destruct d as [c|]; cbn [read_value] in RV.
    2: { subst v. eapply copy_stop; eauto. split; [rewrite EI; reflexivity|]. exists []. rewrite app_nil_r, EI. repeat split; constructor. }
    destruct RV as [R1 R2]. pose proof (code_range c) as RC. destruct (Z.eqb_spec (code c) 4) as [C4|C4].
    { rewrite R1 in E by lia. rewrite C4 in E. eapply copy_stop; eauto. unfold copies. rewrite EI. cbn [uncopied copied]. rewrite C4, Z.eqb_refl.
      split; [reflexivity|]. exists []. rewrite app_nil_r. repeat split; constructor. }
    set (c' := if code c <? 128 then c else NUL).
    assert (V : v = code c' /\ v <> 4).
    { unfold c'. destruct (Z.ltb_spec (code c) 128) as [L|L].
      - destruct (Z.eq_dec (code c) 0) as [Z0|Z0]; [rewrite R2 by auto|rewrite R1 by lia]; split; lia.
      - rewrite R2 by auto. split; [reflexivity|lia]. }
    destruct V as [V V4]. destruct (copy_cond r m o v _ R E WO) as (m1 & ES & EV).
    assert (WO1 : word_ok m1 a = true). { unfold store in ES. rewrite WO in ES. injection ES as <-. exact WO. }
    assert (LF1 : load m1 (h_addr H "fout") = Some f). { rewrite (load_store_other _ _ _ _ _ ES) by lia. exact LF. }
    assert (LC : load m1 a = Some v). { rewrite (load_store _ _ _ _ ES). rewrite wrap64_id; [reflexivity|]. rewrite V. pose proof (code_range c'). lia. }
    destruct (C82_write K H false copy_tree 0 v [] [c'] f m1 (mkOs inp (o_out o)) SV eq_refl LF1) as (z & o2 & EW & PI & l & PO & PF & PC); [rewrite V; apply packed_byte|].
    cbn [o_in o_out] in PI, PO. destruct (IH m1 o2 PI WO1 LF1) as (m' & o' & G & CI & l' & CO & CF & CC).
    exists m', o'. split.
    + eapply go_while; [exact EV| | |exact G].
      * unfold compared. destruct (Z.eqb_spec v 4); [contradiction|]. discriminate.
      * eapply go_expr. rewrite rvalue_named. unfold called. cbn [inb existsb sc_ext]. cbn [rvalues rvalue]. unfold variable. cbn [inb existsb sc_loc sc_ext String.eqb Ascii.eqb Bool.eqb orb].
        unfold andthen, maybe, load_, done. rewrite R. cbn iota. rewrite LC. exact EW.
    + unfold copies. rewrite EI. cbn [uncopied copied]. destruct (Z.eqb_spec (code c) 4); [contradiction|]. rewrite PI in CI, CC. split; [exact CI|].
      exists (l ++ l'). rewrite CO, PO, app_assoc. split; [reflexivity|]. split; [apply Forall_app; auto|]. rewrite map_app, concat_app, PC, CC. reflexivity.
Qed.
End Copy.
(** For every input, the process writes what is to be copied and ends with status 0. *)
Theorem C82_copy : compile copy_text false = Ok copy_module tt /\
  forall K (H : host os) I f a m o, linked H I copy_module -> with_library K I -> load m (h_addr H "fout") = Some f ->
  h_place H m 8 = Some a -> a mod 8 = 0 -> h_addr H "fout" + 8 <= a \/ a + 8 <= h_addr H "fout" ->
  exists o', copies (f + 1) o o' /\ forall code o2, process_ends I copy_module m o code o2 <-> code = 0 /\ o2 = o'.
Proof.
  split; [vm_compute; reflexivity|]. intros K H I f a m o LK LIB LF PL AL AP.
  set (ma := mkMem (fun x => if (a <=? x) && (x <? a + 8) then None else m_byte m x) ((a, 8) :: m_stack m) (m_static m)).
  assert (WA : word_ok ma a = true).
  { unfold word_ok, accessible, ma. cbn [m_stack m_static app existsb]. unfold covers. cbn [fst snd]. rewrite AL, !Z.leb_refl. reflexivity. }
  assert (FA : load ma (h_addr H "fout") = Some f) by (apply load_alloc_other; auto; lia).
  destruct (MemFacts.store_word ma a 0 WA) as [mb ES].
  assert (WB : word_ok mb a = true). { unfold store in ES. rewrite WA in ES. injection ES as <-. exact WA. }
  assert (FB : load mb (h_addr H "fout") = Some f). { rewrite (load_store_other _ _ _ _ _ ES) by lia. exact FA. }
  destruct (copy_loop K H a f (C82_one K H I copy_module LK LIB) AP (put "c" a (fun _ => None)) eq_refl (o_in o) mb o eq_refl WB FB) as (m' & o' & G & CP).
  exists o'. split; [exact CP|].
  apply (C46_end_partial H I copy_module (calls H false copy_tree 1) false copy_body 0 m o (fun _ => None) m o
    (whole [] copy_body 0) (fun _ => None) m o (put "c" a (fun _ => None)) m' o'); [|apply re_here|].
  - constructor; auto; try by_names.
    + intros x args m2 w2. apply (C36_programs_partial _ H I copy_module copy_tree false copy_module_of LK); [by_names|by_regular].
    + exists copy_tree. split; [exact copy_module_of|reflexivity].
    + unfold regular. repeat apply conj; cbn; by_conj.
  - unfold whole. cbn [place copy_body placeL after].
    eapply go_seq; [|eapply go_seq; [exact G|apply go_null]].
    apply go_auto. unfold automatics, automatic, alloc_, alloc, store_, andthen, done. cbn [Z.eqb Pos.eqb]. rewrite PL. cbn iota. fold ma. rewrite ES. reflexivity.
Qed.
Print Assumptions C82_copy.

(** ** Cases *)
Definition I82 := computer ["main"; "b.read"; "b.write"; "b.fout"].
Definition mem82 := word_at (i_sym I82 "b.fout") 0 empty_mem.
Definition typed82 := mkOs (map RdByte ($"Hi" ++ ["200"%char; "004"%char; "x"%char])) [].
Example C82_copy_ex : linked (host_of I82) I82 copy_module /\ with_library pc I82 /\ load mem82 (h_addr (host_of I82) "fout") = Some 0 /\
  (exists a, h_place (host_of I82) mem82 8 = Some a /\ a mod 8 = 0 /\ (h_addr (host_of I82) "fout" + 8 <= a \/ a + 8 <= h_addr (host_of I82) "fout")) /\
  copied (o_in typed82) = $"Hi" ++ [NUL] /\ uncopied (o_in typed82) = [RdByte "x"%char].
Proof.
  split; [by_machine|]. split; [apply computer_library|]. split; [vm_compute; reflexivity|].
  split; [eexists; split; [vm_compute; reflexivity|split; [vm_compute; reflexivity|vm_compute; first [left; discriminate|right; discriminate]]]|]. split; vm_compute; reflexivity.
Qed.
Example C82_ex : served pc (host_of I82) /\ (forall x, In x library_names -> defined 0 copy_tree x None = None) /\
  (exists a, load mem82 a <> None /\ accessible mem82 (wrap64 (a + 3)) 1 = true /\
     exists m' w, calls (host_of I82) true copy_tree 1 "lchar" [a; 3; 65 + 256] mem82 idle = Val w m' idle /\
     calls (host_of I82) true copy_tree 1 "char" [a; 3] m' idle = Val 65 m' idle /\
     calls (host_of I82) true copy_tree 1 "char" [a; 4] m' idle = Val 0 m' idle) /\
  (exists z o', calls (host_of I82) true copy_tree 1 "printd" [-42] mem82 idle = Val z mem82 o' /\ o_out o' = [(1, $"-42")]) /\
  (exists z o', calls (host_of I82) true copy_tree 1 "writeb" [65 + 256] mem82 idle = Val z mem82 o' /\ o_out o' = [(1, $"A")]) /\
  (exists o', calls (host_of I82) true copy_tree 1 "nwrite" [2; i_sym I82 "b.fout"; 2] mem82 idle = Val 2 mem82 o' /\ o_out o' = [(2, [NUL; NUL])]).
Proof.
  split; [apply (C82_one pc (host_of I82) I82 copy_module); [by_machine|apply computer_library]|].
  split; [intros x HI; cbn in HI; repeat (destruct HI as [<-|HI]; [reflexivity|]); contradiction|].
  split. { exists (i_sym I82 "b.fout"). split; [vm_compute; discriminate|]. split; [vm_compute; reflexivity|]. do 2 eexists. repeat split; vm_compute; reflexivity. }
  split; [do 2 eexists; split; vm_compute; reflexivity|]. split; [do 2 eexists; split; vm_compute; reflexivity|]. eexists. split; vm_compute; reflexivity.
Qed.
(** A platform where the kernel delivers the bytes of the input. *)
Definition pc82 := mkPlatform true (fun _ => NUL) (fun _ => 0) (fun _ _ => 0) (fun l => nth 2 l 0)
  (fun _ n o => (Z.of_nat (List.length (firstn (Z.to_nat n) (o_in o))), map (fun r => match r with RdByte c => c | RdNone => NUL end) (firstn (Z.to_nat n) (o_in o)), mkOs (skipn (Z.to_nat n) (o_in o)) (o_out o))).
Definition I82r : ihost os := let J := machine ["main"; "b.nread"; "b.fout"] in mkIHost os (i_place J) (i_sym J) (i_fun J) (library pc82 (i_sym J "b.fout")).
Definition mem82r := word_at (i_sym I82r "b.fout") 0 empty_mem.
Example C82_nread_ex : served pc82 (host_of I82r) /\
  (exists z bs o', k_read pc82 0 3 typed82 = (z, bs, o') /\ bs = $"Hi" ++ ["200"%char] /\
    forall i, (i < List.length bs)%nat -> accessible mem82r (wrap64 (i_sym I82r "b.fout" + Z.of_nat i)) 1 = true) /\
  (exists m', calls (host_of I82r) true copy_tree 1 "nread" [0; i_sym I82r "b.fout"; 3] mem82r typed82 = Val 3 m' (mkOs (skipn 3 (o_in typed82)) []) /\
    map (fun i => m_byte m' (i_sym I82r "b.fout" + i)) [0; 1; 2; 3] = [Some 72; Some 105; Some 200; Some 0]).
Proof.
  split. { intros x args m o HI. cbn [host_of h_ext h_addr]. rewrite (not_main _ HI). reflexivity. }
  split. { do 3 eexists. split; [vm_compute; reflexivity|]. split; [reflexivity|]. intros [|[|[|i]]] L; [vm_compute; reflexivity..|cbn in L; lia]. }
  eexists. split; vm_compute; reflexivity.
Qed.
