(** * PropsRt: properties C38 to C45, the run-time library *)
From Coq Require Import List Ascii String ZArith NArith Lia Bool.
From Verif Require Import Base Lexer SpecLex LexerFacts PropsLex SpecRt Runtime RuntimeFacts PrintfFacts.
Import ListNotations.
Open Scope Z_scope.
Local Notation "$ s" := (list_ascii_of_string s) (at level 0, s at level 0).

(** ** C38: write *)
Theorem C38_write : forall (ch : Z) (w : world), exists s,
  s <> [] /\ (List.length s <= 8)%nat /\ big_endian s = ch mod 2 ^ 64
  /\ (forall r, s = NUL :: r -> r = [])
  /\ b_write ch w = Done tt (mkWorld (w_mem w) (w_fout w) (w_in w) (w_out w ++ [(w_fout w + 1, s)])).
Proof.
  intros ch w. destruct (b_write_spec ch w) as (s & (H1 & H2 & H3 & H4) & E). exists s. auto.
Qed.
Print Assumptions C38_write.

(** There is only one such byte sequence. *)
Theorem C38_write_unique : forall ch s w,
  packed ch s ->
  b_write ch w = Done tt (mkWorld (w_mem w) (w_fout w) (w_in w) (w_out w ++ [(w_fout w + 1, s)])).
Proof. intros. apply b_write_packed. auto. Qed.
Print Assumptions C38_write_unique.

Definition w0 : world := mkWorld (fun _ => NUL) 0 [] [].
Example C38_ex : packed (104 * 256 + 105) $"hi"
  /\ b_write (104 * 256 + 105) w0 = Done tt (mkWorld (fun _ => NUL) 0 [] [(1, $"hi")])
  /\ b_write 0 w0 = Done tt (mkWorld (fun _ => NUL) 0 [] [(1, [NUL])])
  /\ packed (-1) (repeat "255"%char 8).
Proof.
  split; [|split; [|split]]; try reflexivity; (split; [discriminate|]); (split; [cbn; lia|]);
    (split; [reflexivity|]); intros r E; discriminate.
Qed.

(** ** C39: write of a character constant (as the lexer reads it) prints it *)
Theorem C39_write_constant : forall src cs rest fl z l w,
  items QUOTE src cs -> cs <> [] -> (forall r, cs = NUL :: r -> r = []) ->
  Character (mkLexer (src ++ QUOTE :: rest) fl) = Ok z l ->
  b_write z w = Done tt (mkWorld (w_mem w) (w_fout w) (w_in w) (w_out w ++ [(w_fout w + 1, cs)])).
Proof.
  intros src cs rest fl z l w HI HN HZ HC. apply b_write_packed.
  assert (HL : (List.length cs <= 8)%nat).
  { destruct (Nat.leb_spec (List.length cs) 8); auto.
    rewrite (C02_character_too_long src cs) in HC by auto. discriminate. }
  rewrite (Character_ok src cs) in HC by auto. injection HC as <- _.
  split; auto. split; auto. split; auto.
  destruct (wrap64_k (big_endian cs)) as [k ->]. rewrite Z.mod_add by lia.
  symmetry. apply Z.mod_small. pose proof (big_endian_range cs) as [A B]. split; auto.
  eapply Z.lt_le_trans; [exact B|]. change (2 ^ 64) with (256 ^ 8). apply Z.pow_le_mono_r; lia.
Qed.
Print Assumptions C39_write_constant.

Example C39_ex : exists z l, Character (mkLexer $"ab*n'" false) = Ok z l
  /\ items QUOTE $"ab*n" $("ab" ++ String LF "") /\ z = 6382090.
Proof.
  do 2 eexists. split; [reflexivity|]. split; [|reflexivity].
  apply (items_cons QUOTE ["a"%char]); [constructor; discriminate|].
  apply (items_cons QUOTE ["b"%char]); [constructor; discriminate|].
  apply (items_cons QUOTE ["*"%char; "n"%char] LF [] []); [|constructor].
  constructor. cbn. tauto.
Qed.

(** ** C40: printd *)
Theorem C40_printd : forall (n : Z) (w : world), word n -> exists s,
  signed_numeral 10 n s
  /\ b_printd n w = Done tt (mkWorld (w_mem w) (w_fout w) (w_in w) (w_out w ++ [(w_fout w + 1, s)])).
Proof. intros n w H. destruct (b_printd_spec n w H) as (s & H1 & E). exists s. auto. Qed.
Print Assumptions C40_printd.

Theorem C40_numeral_unique : forall n a b, signed_numeral 10 n a -> signed_numeral 10 n b -> a = b.
Proof. intros n a b. apply signed_numeral_unique. lia. Qed.
Print Assumptions C40_numeral_unique.

Example C40_ex : word (- 2 ^ 63)
  /\ b_printd (- 2 ^ 63) w0 = Done tt (mkWorld (fun _ => NUL) 0 [] [(1, $"-9223372036854775808")])
  /\ signed_numeral 10 (- 2 ^ 63) $"-9223372036854775808".
Proof.
  split; [unfold word; lia|]. split; [vm_compute; reflexivity|].
  eexists. split; [reflexivity|]. split; [discriminate|]. split.
  - repeat constructor; vm_compute; congruence.
  - split; [reflexivity|]. intros r E. discriminate.
Qed.

(** ** C41: printo *)
Theorem C41_printo : forall (n : Z) (w : world), exists s,
  numeral 8 (n mod 2 ^ 64) s
  /\ b_printo n w = Done tt (mkWorld (w_mem w) (w_fout w) (w_in w) (w_out w ++ [(w_fout w + 1, s)])).
Proof. intros n w. destruct (b_printo_spec n w) as (s & H1 & E). exists s. auto. Qed.
Print Assumptions C41_printo.

Example C41_ex :
  b_printo (-1) w0 = Done tt (mkWorld (fun _ => NUL) 0 [] [(1, $"1777777777777777777777")])
  /\ b_printo 64 w0 = Done tt (mkWorld (fun _ => NUL) 0 [] [(1, $"100")]).
Proof. split; vm_compute; reflexivity. Qed.

(** ** C42: printf

    For formats and %s strings of 7-bit characters (any characters where
    plain char is unsigned) and %d / %o arguments other than the most negative
    word. The bytes are concatenated over the system calls. *)
Theorem C42_printf_partial : forall sc fmt argf s args out w,
  string_at (w_mem w) fmt s ->
  shows (w_mem w) s args out ->
  printable (fun c => sc = false \/ code c < 128) (w_mem w) s args ->
  (forall k x, nth_error args k = Some x -> argf k = x) ->
  exists n0 w', (forall n, (n0 <= n)%nat -> b_printf n sc fmt argf w = Done tt w')
    /\ w_mem w' = w_mem w /\ w_fout w' = w_fout w /\ w_in w' = w_in w
    /\ exists calls, w_out w' = w_out w ++ calls
       /\ Forall (fun p => fst p = w_fout w + 1) calls /\ List.concat (map snd calls) = out.
Proof.
  intros sc fmt argf s args out w HA HS HP Ha.
  destruct (b_printf_spec sc fmt argf s args out w HA HS HP Ha) as (n0 & w' & P & E).
  exists n0, w'. split; auto.
Qed.
Print Assumptions C42_printf_partial.

(** A memory holding [s] at address 1000 and NUL elsewhere. *)
Definition mem_with (s : list ascii) : Z -> ascii :=
  fun a => if (1000 <=? a) then nth (Z.to_nat (a - 1000)) s NUL else NUL.

Definition run_printf (sc : bool) (s : list ascii) (args : list Z) : option (list ascii) :=
  match b_printf 100 sc 1000 (fun k => nth k args 0) (mkWorld (mem_with s) 0 [] []) with
  | Done _ w => Some (List.concat (map snd (w_out w)))
  | _ => None
  end.


Example C42_ex_string : string_at (mem_with $"n=%d %o%%%x") 1000 $"n=%d %o%%%x".
Proof. cbn -[mem_with Z.modulo Z.add]. repeat split; try discriminate; vm_compute; reflexivity. Qed.
Example C42_ex_shows : shows (mem_with $"n=%d %o%%%x") $"n=%d %o%%%x" [-12; 8] $"n=-12 10%%x".
Proof.
  cbn. repeat (apply sh_char; [discriminate|]). apply (sh_d _ _ (-12) _ $"-12").
  { exists $"12". split; [reflexivity|]. split; [discriminate|].
    split; [repeat constructor; vm_compute; congruence|]. split; [reflexivity|]. discriminate. }
  apply sh_char; [discriminate|]. apply (sh_o _ _ 8 _ $"10").
  { split; [discriminate|]. split; [repeat constructor; vm_compute; congruence|].
    split; [reflexivity|]. discriminate. }
  apply sh_pct. apply sh_other; [cbn; intuition discriminate|]. apply sh_char; [discriminate|]. constructor.
Qed.
Example C42_ex_printable :
  printable (fun c => true = false \/ code c < 128) (mem_with $"n=%d %o%%%x") $"n=%d %o%%%x" [-12; 8].
Proof. cbn. unfold word. repeat split; try (right; reflexivity); try lia. Qed.
Example C42_ex : run_printf true $"n=%d %o%%%x" [-12; 8] = Some $"n=-12 10%%x".
Proof. vm_compute. reflexivity. Qed.

(** The excluded cases do go wrong: %d of the most negative word prints two
    signs, and where plain char is signed a character above 127 is printed as
    eight bytes. *)
Theorem C42_printf_minimum_refuted : exists s args out,
  string_at (mem_with s) 1000 s /\ shows (mem_with s) s args out
  /\ Forall (fun c => code c < 128) s
  /\ run_printf true s args = Some $"--9223372036854775808" /\ out = $"-9223372036854775808".
Proof.
  exists $"%d", [- 2 ^ 63], $"-9223372036854775808". split.
  { cbn -[mem_with Z.modulo Z.add]. repeat split; try discriminate; vm_compute; reflexivity. }
  split. { rewrite <- (app_nil_r $"-9223372036854775808"). apply sh_d; [|constructor]. apply C40_ex. }
  split; [repeat constructor; reflexivity|]. split; [vm_compute; reflexivity|reflexivity].
Qed.
Print Assumptions C42_printf_minimum_refuted.

Theorem C42_printf_signed_char_refuted : exists s,
  string_at (mem_with s) 1000 s /\ shows (mem_with s) s [] s
  /\ run_printf true s [] = Some (repeat "255"%char 7 ++ s) /\ run_printf false s [] = Some s.
Proof.
  exists ["233"%char]. split.
  { cbn -[mem_with Z.modulo Z.add]. repeat split; try discriminate; vm_compute; reflexivity. }
  split; [apply sh_char; [discriminate|constructor]|]. split; vm_compute; reflexivity.
Qed.
Print Assumptions C42_printf_signed_char_refuted.

(** ** C43: char and lchar *)
Theorem C43_lchar_char_partial : forall sc s i c w, exists w',
  b_lchar s i c w = Done tt w'
  /\ code (w_mem w' ((s + i) mod 2 ^ 64)) = c mod 256
  /\ (forall a, a <> (s + i) mod 2 ^ 64 -> w_mem w' a = w_mem w a)
  /\ w_fout w' = w_fout w /\ w_in w' = w_in w /\ w_out w' = w_out w
  /\ (exists v, b_char sc s i w' = Done v w' /\ v mod 256 = c mod 256
      /\ -128 <= v < 256 /\ (c mod 256 < 128 \/ sc = false -> v = c mod 256))
  /\ (forall t j, (t + j) mod 2 ^ 64 <> (s + i) mod 2 ^ 64 ->
      exists v, b_char sc t j w = Done v w /\ b_char sc t j w' = Done v w').
Proof.
  intros sc s i c w. eexists. split; [reflexivity|].
  assert (B : code (byte_of c) = c mod 256) by apply code_byte_of.
  assert (R : 0 <= c mod 256 < 256) by (apply Z.mod_pos_bound; lia).
  cbn [w_mem w_fout w_in w_out]. unfold u64. split.
  { rewrite Z.eqb_refl. auto. }
  split. { intros a Ha. destruct (Z.eqb_spec a ((s + i) mod 2 ^ 64)); [contradiction|auto]. }
  repeat split; auto.
  - eexists. split.
    { unfold b_char, rbind, peek, rret, u64. cbn [w_mem]. rewrite Z.eqb_refl. reflexivity. }
    unfold char_val. rewrite B. destruct (Z.leb_spec 128 (c mod 256)) as [H|H]; destruct sc; cbn [andb].
    + split. { replace (c mod 256 - 256) with (c mod 256 + -1 * 256) by ring.
        rewrite Z.mod_add by lia. apply Z.mod_mod. lia. }
      split; [lia|]. intros [?|?]; [lia|discriminate].
    + rewrite Z.mod_mod by lia. repeat split; try lia.
    + rewrite Z.mod_mod by lia. repeat split; try lia.
    + rewrite Z.mod_mod by lia. repeat split; try lia.
  - intros t j Hj. unfold b_char, rbind, peek, rret, u64. cbn [w_mem].
    destruct (Z.eqb_spec ((t + j) mod 2 ^ 64) ((s + i) mod 2 ^ 64)); [contradiction|]. eauto.
Qed.
Print Assumptions C43_lchar_char_partial.

(** Where plain char is signed, char does not give back a byte above 127. *)
Theorem C43_char_refuted : exists c w', 0 <= c < 256
  /\ b_lchar 1000 0 c w0 = Done tt w' /\ b_char true 1000 0 w' <> Done c w'.
Proof. exists 200. eexists. split; [lia|]. split; [reflexivity|]. vm_compute. discriminate. Qed.
Print Assumptions C43_char_refuted.

Example C43_ex : exists w', b_lchar 1000 3 (256 + 65) w0 = Done tt w'
  /\ b_char true 1000 3 w' = Done 65 w' /\ b_char true 1000 4 w' = Done 0 w'.
Proof. eexists. split; [reflexivity|]. split; reflexivity. Qed.

(** ** C44: read *)
(** What one call of read should return for one delivery. *)
Definition read_value (r : rd) (v : Z) : Prop :=
  match r with
  | RdNone => v = 4
  | RdByte c => (0 < code c < 128 -> v = code c) /\ (code c = 0 \/ 128 <= code c -> v = 0)
  end.

(** [k] successive calls. *)
Fixpoint read_times (sc : bool) (k : nat) : R (list Z) :=
  match k with
  | O => rret []
  | S k' => (v <-- b_read sc ;; vs <-- read_times sc k' ;; rret (v :: vs))%r
  end.

Theorem C44_read : forall sc k w, exists vs w',
  read_times sc k w = Done vs w'
  /\ List.length vs = k
  /\ w_in w' = skipn k (w_in w)
  /\ w_mem w' = w_mem w /\ w_fout w' = w_fout w /\ w_out w' = w_out w
  /\ forall i v, nth_error vs i = Some v -> read_value (nth i (w_in w) RdNone) v.
Proof.
  intros sc k. induction k as [|k IH]; intros w.
  - exists [], w. cbn. repeat split; auto. intros [|i] v E; discriminate.
  - destruct w as [m f inp o].
    assert (exists v, b_read sc (mkWorld m f inp o) = Done v (mkWorld m f (skipn 1 inp) o)
                      /\ read_value (nth 0 inp RdNone) v) as (v & E & HV).
    { destruct inp as [|[c|] r]; cbn [b_read w_in w_mem w_fout w_out nth skipn].
      - exists 4. split; reflexivity.
      - eexists. split; [reflexivity|]. cbn [read_value]. pose proof (code_range c).
        unfold char_val. destruct (Z.leb_spec 128 (code c)); destruct sc; cbn [andb];
          destruct (Z.ltb_spec 0 (code c - 256)); destruct (Z.ltb_spec 0 (code c));
          destruct (Z.leb_spec (code c) 127); cbn [andb]; split; intros; try lia;
          destruct (Z.leb_spec (code c - 256) 127); lia.
      - exists 4. split; reflexivity. }
    destruct (IH (mkWorld m f (skipn 1 inp) o)) as (vs & w' & EI & HL & HI & HM & HF & HO & HN).
    exists (v :: vs), w'. cbn [read_times]. unfold rbind. rewrite E, EI. split; [reflexivity|].
    split; [cbn; congruence|]. cbn [w_in w_mem w_fout w_out] in *. split.
    { rewrite HI. destruct inp; [destruct k|]; reflexivity. }
    repeat split; auto. intros [|i] x Hx; cbn [nth_error] in Hx.
    + injection Hx as <-. auto.
    + apply HN in Hx. destruct inp; cbn in Hx |- *; auto. destruct i; auto.
Qed.
Print Assumptions C44_read.

Example C44_ex : exists w', read_times true 5
    (mkWorld (fun _ => NUL) 0 [RdByte "x"; RdByte "200"%char; RdByte NUL] []) = Done [120; 0; 0; 4; 4] w'.
Proof. eexists. vm_compute. reflexivity. Qed.

(** ** C45: no store outside the local arrays *)
Theorem C45_no_overflow : forall n w, word n ->
  b_write n w <> OutOfBounds /\ b_printd n w <> OutOfBounds /\ b_printo n w <> OutOfBounds.
Proof.
  intros n w H. destruct (b_write_spec n w) as (s1 & _ & ->).
  destruct (b_printd_spec n w H) as (s2 & _ & ->). destruct (b_printo_spec n w) as (s3 & _ & ->).
  repeat split; discriminate.
Qed.
Print Assumptions C45_no_overflow.

(** An array of 21 bytes instead of 22 would overflow, so the claim is tight. *)
Example C45_ex : word (-1) /\ printo_loop 23 (u64 (-1)) (new_buf 21) 21 = None
  /\ (exists r, printo_loop 23 (u64 (-1)) (new_buf 22) 22 = Some r).
Proof. split; [unfold word; lia|]. split; [|eexists]; vm_compute; reflexivity. Qed.
