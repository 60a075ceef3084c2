(** * RuntimeFacts: lemmas about the run-time library *)
From Coq Require Import List Ascii String ZArith NArith Lia Bool.
From Verif Require Import Base Lexer LexerFacts SpecLex SpecRt Runtime.
Import ListNotations.
Open Scope Z_scope.
Open Scope r_scope.

(** ** Buffers *)
Lemma store_fwd out m c : store_buf (map Some out ++ repeat None (S m)) (Z.of_nat (List.length out)) c
  = Some (map Some (out ++ [c]) ++ repeat None m).
Proof.
  unfold store_buf. rewrite app_length, map_length, repeat_length.
  destruct (Z.leb_spec 0 (Z.of_nat (List.length out))); [|lia].
  destruct (Z.ltb_spec (Z.of_nat (List.length out)) (Z.of_nat (List.length out + S m))); [|lia].
  cbn [andb]. rewrite Nat2Z.id. f_equal.
  rewrite firstn_app, map_length, Nat.sub_diag. cbn [firstn].
  rewrite app_nil_r, firstn_all2 by (rewrite map_length; lia).
  rewrite skipn_app, skipn_all2 by (rewrite map_length; lia). rewrite map_length.
  replace (S (List.length out) - List.length out)%nat with 1%nat by lia.
  cbn [skipn repeat app]. rewrite map_app, <- app_assoc. reflexivity.
Qed.

Lemma store_bwd out p c : store_buf (repeat None (S p) ++ map Some out) (Z.of_nat (S p) - 1) c
  = Some (repeat None p ++ map Some (c :: out)).
Proof.
  unfold store_buf. rewrite app_length, map_length, repeat_length.
  destruct (Z.leb_spec 0 (Z.of_nat (S p) - 1)); [|lia].
  destruct (Z.ltb_spec (Z.of_nat (S p) - 1) (Z.of_nat (S p + List.length out))); [|lia].
  cbn [andb]. replace (Z.to_nat (Z.of_nat (S p) - 1)) with p by lia. f_equal.
  rewrite firstn_app, repeat_length. replace (p - S p)%nat with 0%nat by lia. cbn [firstn]. rewrite app_nil_r.
  rewrite skipn_app, repeat_length, Nat.sub_diag, skipn_all2 by (rewrite repeat_length; lia). cbn [skipn app map].
  f_equal. clear. change (S p) with (1 + p)%nat. rewrite Nat.add_comm, repeat_app.
  rewrite firstn_app, repeat_length, Nat.sub_diag. cbn [firstn]. rewrite app_nil_r.
  apply firstn_all2. rewrite repeat_length. lia.
Qed.

Lemma all_some_map l : all_some (map Some l) = Some l.
Proof. induction l as [|c l IH]; cbn; [reflexivity|]. rewrite IH. reflexivity. Qed.

Lemma slice_fwd out m : slice_buf (map Some out ++ repeat None m) 0 (Z.of_nat (List.length out)) = Some out.
Proof.
  unfold slice_buf. rewrite app_length, map_length, repeat_length.
  destruct (Z.leb_spec 0 (Z.of_nat (List.length out))); [|lia].
  destruct (Z.leb_spec (0 + Z.of_nat (List.length out)) (Z.of_nat (List.length out + m))); [|lia].
  cbn [andb Z.leb Z.compare]. rewrite Nat2Z.id. cbn [Z.to_nat skipn].
  rewrite firstn_app, map_length, Nat.sub_diag. cbn [firstn].
  rewrite app_nil_r, firstn_all2 by (rewrite map_length; lia). apply all_some_map.
Qed.

Lemma slice_bwd out p : slice_buf (repeat None p ++ map Some out) (Z.of_nat p) (Z.of_nat (List.length out)) = Some out.
Proof.
  unfold slice_buf. rewrite app_length, map_length, repeat_length.
  destruct (Z.leb_spec 0 (Z.of_nat (List.length out))); [|lia].
  destruct (Z.leb_spec 0 (Z.of_nat p)); [|lia].
  destruct (Z.leb_spec (Z.of_nat p + Z.of_nat (List.length out)) (Z.of_nat (p + List.length out))); [|lia].
  cbn [andb]. rewrite !Nat2Z.id.
  rewrite skipn_app, repeat_length, Nat.sub_diag, skipn_all2 by (rewrite repeat_length; lia). cbn [skipn app].
  rewrite firstn_all2 by (rewrite map_length; lia). apply all_some_map.
Qed.

(** ** Big-endian bytes *)
Lemma big_endian_range bs : 0 <= big_endian bs < 256 ^ Z.of_nat (List.length bs).
Proof.
  induction bs as [|b bs IH]; cbn [big_endian List.length].
  - change (Z.of_nat 0) with 0. rewrite Z.pow_0_r. lia.
  - rewrite Nat2Z.inj_succ, Z.pow_succ_r by lia. pose proof (code_range b). nia.
Qed.

Lemma big_endian_app a b : big_endian (a ++ b) = big_endian a * 256 ^ Z.of_nat (List.length b) + big_endian b.
Proof.
  induction a as [|x a IH]; cbn [big_endian app]; [lia|].
  rewrite IH, app_length, Nat2Z.inj_add, Z.pow_add_r by lia. ring.
Qed.

Lemma bytes_exist k : forall v, 0 <= v < 256 ^ Z.of_nat k ->
  exists bs, List.length bs = k /\ big_endian bs = v.
Proof.
  induction k as [|k IH]; intros v Hv.
  - exists []. change (Z.of_nat 0) with 0 in Hv. rewrite Z.pow_0_r in Hv. cbn. split; auto; lia.
  - rewrite Nat2Z.inj_succ, Z.pow_succ_r in Hv by lia.
    destruct (IH (v / 256)) as (bs & HL & HB).
    { split; [apply Z.div_pos; lia|]. apply Z.div_lt_upper_bound; lia. }
    exists (bs ++ [byte_of v]). rewrite app_length, big_endian_app, HL, HB. cbn [List.length big_endian].
    split; [lia|]. rewrite code_byte_of. change (Z.of_nat 1) with 1. change (Z.of_nat 0) with 0.
    rewrite Z.pow_0_r, Z.pow_1_r. pose proof (Z.div_mod v 256). lia.
Qed.

(** Drop leading NUL bytes, keeping the last byte. *)
Fixpoint strip (bs : list ascii) : list ascii :=
  match bs with
  | b :: ((_ :: _) as r) => if code b =? 0 then strip r else bs
  | _ => bs
  end.

Lemma strip_cons b b2 r : strip (b :: b2 :: r) = if code b =? 0 then strip (b2 :: r) else b :: b2 :: r.
Proof. reflexivity. Qed.

Lemma code_NUL : code NUL = 0.
Proof. reflexivity. Qed.

Lemma strip_packed bs : bs <> [] -> strip bs <> [] /\ (List.length (strip bs) <= List.length bs)%nat
  /\ big_endian (strip bs) = big_endian bs /\ (forall r, strip bs = NUL :: r -> r = []).
Proof.
  induction bs as [|b [|b2 r] IH]; intros H.
  - congruence.
  - cbn. repeat split; auto; try congruence.
  - rewrite strip_cons. destruct (Z.eqb_spec (code b) 0) as [E|E].
    + destruct IH as (H1 & H2 & H3 & H4); [congruence|]. repeat split; auto.
      * cbn in *. lia.
      * rewrite H3. cbn [big_endian]. rewrite E. lia.
    + repeat split; auto; try congruence. intros r' E'. exfalso. injection E' as E' _.
      apply E. rewrite E'. reflexivity.
Qed.

Lemma write_byte b r : (List.length r <= 7)%nat ->
  byte_of (big_endian (b :: r) * 256 ^ (7 - Z.of_nat (List.length r)) / 2 ^ 56) = b.
Proof.
  intros HL. cbn [big_endian]. set (n := Z.of_nat (List.length r)).
  pose proof (big_endian_range r) as HR. fold n in HR.
  assert (E : 2 ^ 56 = 256 ^ n * 256 ^ (7 - n)).
  { rewrite <- Z.pow_add_r by lia. replace (n + (7 - n)) with 7 by lia. reflexivity. }
  rewrite E.
  rewrite Z.div_mul_cancel_r.
  - rewrite Z.div_add_l by (apply Z.pow_nonzero; lia).
    rewrite (Z.div_small (big_endian r)) by lia. rewrite Z.add_0_r. apply byte_of_code.
  - apply Z.pow_nonzero; lia.
  - apply Z.pow_nonzero; lia.
Qed.

Lemma write_shift b r : (List.length r <= 7)%nat ->
  u64 (big_endian (b :: r) * 256 ^ (7 - Z.of_nat (List.length r)) * 2 ^ 8)
  = big_endian r * 256 ^ (8 - Z.of_nat (List.length r)).
Proof.
  intros HL. cbn [big_endian]. set (n := Z.of_nat (List.length r)).
  pose proof (big_endian_range r) as HR. fold n in HR. unfold u64.
  assert (E : 2 ^ 64 = 256 ^ n * 256 ^ (8 - n)).
  { rewrite <- Z.pow_add_r by lia. replace (n + (8 - n)) with 8 by lia. reflexivity. }
  assert (E8 : 256 ^ (8 - n) = 256 ^ (7 - n) * 256).
  { replace (8 - n) with (Z.succ (7 - n)) by lia. rewrite Z.pow_succ_r by lia. ring. }
  assert (P : 0 < 256 ^ (8 - n)) by (apply Z.pow_pos_nonneg; lia).
  symmetry. apply Z.mod_unique with (code b).
  - left. rewrite E. nia.
  - rewrite E, E8. change (2 ^ 8) with 256. ring.
Qed.

Lemma write_loop_spec bs : forall out m, (List.length bs <= 8)%nat -> (List.length bs <= m)%nat ->
  let res := match out with [] => strip bs | _ => bs end in
  exists m', write_loop (List.length bs) (big_endian bs * 256 ^ (8 - Z.of_nat (List.length bs)))
    (map Some out ++ repeat None m) (Z.of_nat (List.length out))
  = Some (map Some (out ++ res) ++ repeat None m', Z.of_nat (List.length (out ++ res))).
Proof.
  induction bs as [|b r IH]; intros out m HL HM res.
  - cbn [List.length write_loop]. exists m. subst res. destruct out; cbn; rewrite ?app_nil_r; reflexivity.
  - cbn [List.length] in *. destruct m as [|m]; [lia|]. cbn [write_loop].
    replace (8 - Z.of_nat (S (List.length r))) with (7 - Z.of_nat (List.length r)) by lia.
    rewrite write_byte, write_shift by lia. cbv zeta.
    destruct out as [|o out].
    + change (Z.of_nat (List.length (@nil ascii)) =? 0) with true. cbn [negb orb].
      rewrite orb_false_r. destruct r as [|b2 r].
      * rewrite orb_true_r. change (Z.of_nat 0) with (Z.of_nat (List.length (@nil ascii))).
        rewrite store_fwd. exists m. reflexivity.
      * cbn [List.length Nat.eqb]. rewrite orb_false_r. subst res. rewrite strip_cons.
        destruct (Z.eqb_spec (code b) 0); cbn [negb].
        -- apply (IH [] (S m)); cbn in *; lia.
        -- change (Z.of_nat (@List.length ascii [])) with (Z.of_nat (List.length (@nil ascii))).
           rewrite store_fwd. cbn [app map].
           destruct (IH [b] m) as [m' E]; [cbn in *; lia|cbn in *; lia|].
           exists m'. etransitivity; [exact E|]. reflexivity.
    + destruct (Z.eqb_spec (Z.of_nat (List.length (o :: out))) 0) as [E0|_]; [cbn in E0; lia|].
      cbn [negb]. rewrite orb_true_r. cbn [orb]. rewrite store_fwd.
      destruct (IH ((o :: out) ++ [b]) m) as [m' E]; [lia|lia|].
      exists m'. subst res. cbv zeta in E.
      replace (Z.of_nat (List.length (o :: out)) + 1) with (Z.of_nat (List.length ((o :: out) ++ [b])))
        by (rewrite app_length; cbn; lia).
      etransitivity; [exact E|]. cbn [app]. rewrite <- app_assoc. reflexivity.
Qed.

(** The effect of writing [bs] on the selected stream. *)
Definition wrote (w : world) (bs : list ascii) : world :=
  mkWorld (w_mem w) (w_fout w) (w_in w) (w_out w ++ [(w_fout w + 1, bs)]).

Lemma b_write_spec ch w : exists s, packed ch s /\ b_write ch w = Done tt (wrote w s).
Proof.
  destruct (bytes_exist 8 (u64 ch)) as (bs & HL & HB).
  { unfold u64. apply Z.mod_pos_bound. lia. }
  destruct (write_loop_spec bs [] 8) as [m E]; [lia|lia|]. cbn [app] in E.
  rewrite HL, HB in E. change (256 ^ (8 - Z.of_nat 8)) with 1 in E. rewrite Z.mul_1_r in E.
  change (Z.of_nat (List.length (@nil ascii))) with 0 in E.
  change (map Some (@nil ascii) ++ repeat None 8) with (new_buf 8) in E.
  exists (strip bs). split.
  - destruct (strip_packed bs) as (H1 & H2 & H3 & H4); [destruct bs; [discriminate|congruence]|].
    repeat split; auto; [lia|rewrite H3; exact HB].
  - unfold b_write. rewrite E, slice_fwd. reflexivity.
Qed.

(** Uniqueness of the packed bytes. *)
Lemma big_endian_inj : forall a b, List.length a = List.length b -> big_endian a = big_endian b -> a = b.
Proof.
  induction a as [|x a IH]; intros [|y b] HL HE; try discriminate; auto.
  cbn in HL. injection HL as HL. cbn [big_endian] in HE. rewrite HL in HE.
  pose proof (big_endian_range a) as Ra. pose proof (big_endian_range b) as Rb. rewrite HL in Ra.
  assert (code x = code y) by nia. assert (big_endian a = big_endian b) by nia.
  f_equal; auto using code_inj.
Qed.

Lemma packed_lower s : s <> [] -> (forall r, s = NUL :: r -> r = []) ->
  (List.length s = 1)%nat \/ 256 ^ Z.of_nat (List.length s - 1) <= big_endian s.
Proof.
  intros HN HZ. destruct s as [|b r]; [congruence|]. destruct r as [|b2 r]; [auto|]. right.
  cbn [List.length big_endian]. replace (S (S (List.length r)) - 1)%nat with (S (List.length r)) by lia.
  pose proof (big_endian_range (b2 :: r)) as R. cbn [big_endian List.length] in R.
  pose proof (code_range b) as Rb.
  assert (code b <> 0).
  { intros E. assert (b = NUL) as -> by (apply code_inj; rewrite E; reflexivity).
    specialize (HZ (b2 :: r) eq_refl). discriminate. }
  assert (0 < 256 ^ Z.of_nat (S (List.length r))) by (apply Z.pow_pos_nonneg; lia). nia.
Qed.

Lemma packed_length a b : a <> [] -> b <> [] -> (forall r, a = NUL :: r -> r = []) ->
  big_endian a = big_endian b -> (List.length a <= List.length b)%nat.
Proof.
  intros Na Nb Za E. destruct (packed_lower a Na Za) as [L|L].
  - destruct b; [congruence|cbn; lia].
  - pose proof (big_endian_range b) as R. rewrite <- E in R.
    destruct (Nat.le_gt_cases (List.length a) (List.length b)); auto. exfalso.
    assert (256 ^ Z.of_nat (List.length b) <= 256 ^ Z.of_nat (List.length a - 1)) by (apply Z.pow_le_mono_r; lia).
    lia.
Qed.

Lemma packed_unique w a b : packed w a -> packed w b -> a = b.
Proof.
  intros (Na & La & Ea & Za) (Nb & Lb & Eb & Zb). assert (big_endian a = big_endian b) by congruence.
  apply big_endian_inj; auto. apply Nat.le_antisymm; apply packed_length; auto.
Qed.

Lemma b_write_packed ch s w : packed ch s -> b_write ch w = Done tt (wrote w s).
Proof.
  intros H. destruct (b_write_spec ch w) as (s' & H' & ->). do 2 f_equal. eapply packed_unique; eauto.
Qed.

Lemma packed_byte c : packed (code c) [c].
Proof.
  pose proof (code_range c). repeat split; try congruence.
  - cbn. lia.
  - rewrite Z.mod_small by lia. cbn [big_endian List.length]. change (256 ^ Z.of_nat 0) with 1. lia.
Qed.

(** ** Digit loops *)
Lemma positional_app base a c : positional base (a ++ [c]) = positional base a * base + (code c - 48).
Proof.
  induction a as [|x a IH]; cbn [app positional].
  - cbn [List.length]. change (Z.of_nat 0) with 0. rewrite Z.pow_0_r. lia.
  - rewrite IH, app_length. cbn [List.length]. rewrite Nat.add_1_r, Nat2Z.inj_succ, Z.pow_succ_r by lia. ring.
Qed.

Fixpoint digits_loop (base : Z) (n : nat) (value : Z) (b : buffer) (p : Z) : option (buffer * Z) :=
  match n with
  | O => None
  | S n' =>
      match store_buf b (p - 1) (byte_of (48 + value mod base)) with
      | None => None
      | Some b' =>
          if value / base =? 0 then Some (b', p - 1) else digits_loop base n' (value / base) b' (p - 1)
      end
  end.

Lemma printd_digits n : forall v b p, printd_loop n v b p = digits_loop 10 n v b p.
Proof.
  induction n as [|n IH]; intros; cbn [printd_loop digits_loop]; auto.
  destruct (store_buf _ _ _); auto. cbv zeta. destruct (_ =? 0); auto.
Qed.

Lemma printo_digits n : forall v b p, printo_loop n v b p = digits_loop 8 n v b p.
Proof.
  induction n as [|n IH]; intros; cbn [printo_loop digits_loop]; auto.
  change 7 with (Z.ones 3). rewrite Z.land_ones, Z.shiftr_div_pow2 by lia. change (2 ^ 3) with 8.
  destruct (store_buf _ _ _); auto. cbv zeta. destruct (_ =? 0); auto.
Qed.

Lemma digit_char base v : 2 <= base <= 10 -> code (byte_of (48 + v mod base)) = 48 + v mod base.
Proof.
  intros H. rewrite code_byte_of. pose proof (Z.mod_pos_bound v base). rewrite Z.mod_small; lia.
Qed.

Lemma digits_loop_spec base : 2 <= base <= 10 -> forall k n v out p,
  0 <= v < base ^ Z.of_nat (S k) -> (S k <= n)%nat -> (S k <= p)%nat ->
  exists ds, numeral base v ds /\ (List.length ds <= S k)%nat /\
    digits_loop base n v (repeat None p ++ map Some out) (Z.of_nat p)
    = Some (repeat None (p - List.length ds) ++ map Some (ds ++ out), Z.of_nat (p - List.length ds)).
Proof.
  intros HB. induction k as [|k IH]; intros n v out p Hv Hn Hp;
    (destruct n as [|n]; [lia|]); (destruct p as [|p]; [lia|]); cbn [digits_loop]; rewrite store_bwd;
    pose proof (digit_char base v HB) as DC; pose proof (Z.mod_pos_bound v base) as MB.
  - change (Z.of_nat 1) with 1 in Hv. rewrite Z.pow_1_r in Hv.
    rewrite (Z.div_small v) by lia. rewrite (Z.mod_small v) in * by lia. cbn [Z.eqb].
    exists [byte_of (48 + v)]. repeat split.
    + congruence.
    + constructor; auto. lia.
    + cbn [positional List.length]. change (Z.of_nat 0) with 0. rewrite Z.pow_0_r. lia.
    + intros r E. injection E as _ <-. reflexivity.
    + cbn; lia.
    + cbn [List.length]. replace (S p - 1)%nat with p by lia. f_equal. f_equal. lia.
  - destruct (Z.eqb_spec (v / base) 0) as [E0|E0].
    + assert (Hs : v < base) by (apply Z.div_small_iff in E0; lia).
      rewrite (Z.mod_small v) in * by lia.
      exists [byte_of (48 + v)]. repeat split.
      * congruence.
      * constructor; auto. lia.
      * cbn [positional List.length]. change (Z.of_nat 0) with 0. rewrite Z.pow_0_r. lia.
      * intros r E. injection E as _ <-. reflexivity.
      * cbn; lia.
      * cbn [List.length]. replace (S p - 1)%nat with p by lia. f_equal. f_equal. lia.
    + destruct (IH n (v / base) (byte_of (48 + v mod base) :: out) p) as (ds & HN & HL & E).
      { split; [apply Z.div_pos; lia|]. apply Z.div_lt_upper_bound; [lia|].
        rewrite Nat2Z.inj_succ, Z.pow_succ_r in Hv by lia. lia. }
      { lia. } { lia. }
      exists (ds ++ [byte_of (48 + v mod base)]). destruct HN as (H1 & H2 & H3 & H4). repeat split.
      * destruct ds; cbn; congruence.
      * apply Forall_app. split; auto. constructor; auto. lia.
      * rewrite positional_app, H3, DC. pose proof (Z.div_mod v base). lia.
      * intros r Er. exfalso. destruct ds as [|d ds]; [congruence|]. cbn in Er. injection Er as -> Er.
        specialize (H4 _ eq_refl). subst ds. cbn in H3. lia.
      * rewrite app_length. cbn. lia.
      * replace (Z.of_nat (S p) - 1) with (Z.of_nat p) by lia. etransitivity; [exact E|].
        rewrite app_length. cbn [List.length].
        replace (S p - (List.length ds + 1))%nat with (p - List.length ds)%nat by lia.
        rewrite <- app_assoc. reflexivity.
Qed.

Lemma b_printd_spec n w : word n ->
  exists s, signed_numeral 10 n s /\ b_printd n w = Done tt (wrote w s).
Proof.
  intros Hw. unfold word in Hw. unfold b_printd, signed_numeral.
  set (value := if n <? 0 then u64 (1 + (2 ^ 64 - 1 - u64 n)) else u64 n).
  assert (EV : value = Z.abs n).
  { unfold value, u64. destruct (Z.ltb_spec n 0).
    - rewrite <- (Z.mod_add n 1) by lia. rewrite (Z.mod_small (n + _)) by lia.
      rewrite Z.mod_small by lia. lia.
    - rewrite Z.mod_small by lia. lia. }
  destruct (digits_loop_spec 10 ltac:(lia) 19 27 value [] 26) as (ds & HN & HL & E).
  { change (10 ^ Z.of_nat 20) with 100000000000000000000. rewrite EV. lia. }
  { lia. } { lia. }
  cbn [map] in E. rewrite !app_nil_r in E. change (Z.of_nat 26) with 26 in E.
  change (repeat None 26) with (new_buf 26) in E. rewrite printd_digits, E.
  destruct (Z.ltb_spec n 0) as [Neg|Pos].
  - destruct (26 - List.length ds)%nat as [|p] eqn:EP; [lia|].
    rewrite store_bwd.
    exists ("-"%char :: ds). split.
    + exists ds. split; auto. replace (- n) with value by lia. exact HN.
    + replace (Z.of_nat (S p) - 1) with (Z.of_nat p) by lia.
      replace (26 - Z.of_nat p) with (Z.of_nat (List.length ("-"%char :: ds))) by (cbn [List.length]; lia).
      rewrite slice_bwd. reflexivity.
  - exists ds. split.
    + replace n with value by lia. exact HN.
    + replace (26 - Z.of_nat (26 - List.length ds)) with (Z.of_nat (List.length ds)) by lia.
      rewrite slice_bwd. reflexivity.
Qed.

Lemma b_printo_spec n w :
  exists s, numeral 8 (n mod 2 ^ 64) s /\ b_printo n w = Done tt (wrote w s).
Proof.
  unfold b_printo. fold (u64 n).
  destruct (digits_loop_spec 8 ltac:(lia) 21 23 (u64 n) [] 22) as (ds & HN & HL & E).
  { unfold u64. change (8 ^ Z.of_nat 22) with 73786976294838206464. pose proof (Z.mod_pos_bound n (2 ^ 64)). lia. }
  { lia. } { lia. }
  cbn [map] in E. rewrite !app_nil_r in E. change (Z.of_nat 22) with 22 in E.
  change (repeat None 22) with (new_buf 22) in E. rewrite printo_digits, E.
  exists ds. split; auto.
  replace (22 - Z.of_nat (22 - List.length ds)) with (Z.of_nat (List.length ds)) by lia.
  rewrite slice_bwd. reflexivity.
Qed.

(** Numerals are unique. *)
Lemma positional_range base s : 2 <= base -> Forall (fun c => 48 <= code c < 48 + base) s ->
  0 <= positional base s < base ^ Z.of_nat (List.length s).
Proof.
  intros HB. induction 1 as [|c s HC HS IH]; cbn [positional List.length].
  - change (Z.of_nat 0) with 0. rewrite Z.pow_0_r. lia.
  - rewrite Nat2Z.inj_succ, Z.pow_succ_r by lia. nia.
Qed.

Lemma positional_inj base : 2 <= base -> forall a b,
  Forall (fun c => 48 <= code c < 48 + base) a -> Forall (fun c => 48 <= code c < 48 + base) b ->
  List.length a = List.length b -> positional base a = positional base b -> a = b.
Proof.
  intros HB. induction a as [|x a IH]; intros [|y b] Ha Hb HL HE; try discriminate; auto.
  inversion Ha; inversion Hb; subst.
  cbn in HL. injection HL as HL. cbn [positional] in HE. rewrite HL in HE.
  pose proof (positional_range base a HB ltac:(auto)) as Ra.
  pose proof (positional_range base b HB ltac:(auto)) as Rb. rewrite HL in Ra.
  assert (code x = code y) by nia. assert (positional base a = positional base b) by nia.
  f_equal; auto using code_inj.
Qed.

Lemma numeral_lower base s n : 2 <= base <= 10 -> numeral base n s ->
  (List.length s = 1)%nat \/ base ^ Z.of_nat (List.length s - 1) <= n.
Proof.
  intros HB (HN & HF & HP & HZ). destruct s as [|b r]; [congruence|]. destruct r as [|b2 r]; [auto|]. right.
  inversion HF as [|? ? Hb Hr]; subst.
  cbn [List.length]. replace (S (S (List.length r)) - 1)%nat with (S (List.length r)) by lia.
  change (positional base (b :: b2 :: r)) with ((code b - 48) * base ^ Z.of_nat (List.length (b2 :: r)) + positional base (b2 :: r)).
  pose proof (positional_range base (b2 :: r) ltac:(lia) Hr) as R.
  assert (code b <> 48).
  { intros E. assert (b = "0"%char) as -> by (apply code_inj; rewrite E; reflexivity).
    specialize (HZ (b2 :: r) eq_refl). discriminate. }
  assert (0 < base ^ Z.of_nat (List.length (b2 :: r))) by (apply Z.pow_pos_nonneg; lia).
  cbn [List.length] in *. nia.
Qed.

Lemma numeral_length base n a b : 2 <= base <= 10 -> numeral base n a -> numeral base n b ->
  (List.length a <= List.length b)%nat.
Proof.
  intros HB Ha Hb. destruct (numeral_lower _ _ _ HB Ha) as [L|L].
  - destruct Hb as (Nb & _). destruct b; [congruence|cbn; lia].
  - destruct Hb as (Nb & Fb & Pb & _). pose proof (positional_range base b ltac:(lia) Fb) as R. rewrite Pb in R.
    destruct (Nat.le_gt_cases (List.length a) (List.length b)); auto. exfalso.
    assert (base ^ Z.of_nat (List.length b) <= base ^ Z.of_nat (List.length a - 1)) by (apply Z.pow_le_mono_r; lia).
    lia.
Qed.

Lemma numeral_unique base n a b : 2 <= base <= 10 -> numeral base n a -> numeral base n b -> a = b.
Proof.
  intros HB Ha Hb. pose proof (numeral_length _ _ _ _ HB Ha Hb). pose proof (numeral_length _ _ _ _ HB Hb Ha).
  destruct Ha as (_ & Fa & Pa & _), Hb as (_ & Fb & Pb & _).
  apply (positional_inj base); auto; lia.
Qed.

Lemma signed_numeral_unique base n a b : 2 <= base <= 10 ->
  signed_numeral base n a -> signed_numeral base n b -> a = b.
Proof.
  unfold signed_numeral. intros HB. destruct (n <? 0).
  - intros (d & -> & H1) (d' & -> & H2). f_equal. eapply numeral_unique; eauto.
  - apply numeral_unique; auto.
Qed.
