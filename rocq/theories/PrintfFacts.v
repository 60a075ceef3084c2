(** * PrintfFacts: lemmas about printf *)
From Coq Require Import List Ascii String ZArith NArith Lia Bool.
From Verif Require Import Base Lexer LexerFacts SpecLex SpecRt Runtime RuntimeFacts.
Import ListNotations.
Open Scope Z_scope.
Open Scope r_scope.

(** [w'] is [w] after printing [o] on the selected stream, in any number of
    system calls. *)
Definition prints (w : world) (o : list ascii) (w' : world) : Prop :=
  w_mem w' = w_mem w /\ w_fout w' = w_fout w /\ w_in w' = w_in w
  /\ exists l, w_out w' = w_out w ++ l /\ Forall (fun p => fst p = w_fout w + 1) l
     /\ List.concat (map snd l) = o.

Lemma prints_nil w : prints w [] w.
Proof. repeat split; auto. exists []. rewrite app_nil_r. auto. Qed.

Lemma prints_wrote w s : prints w s (wrote w s).
Proof.
  repeat split; auto. exists [(w_fout w + 1, s)]. cbn. rewrite app_nil_r. repeat split; auto.
Qed.

Lemma prints_trans w1 o1 w2 o2 w3 : prints w1 o1 w2 -> prints w2 o2 w3 -> prints w1 (o1 ++ o2) w3.
Proof.
  intros (M1 & F1 & I1 & l1 & E1 & A1 & C1) (M2 & F2 & I2 & l2 & E2 & A2 & C2).
  repeat split; try congruence. exists (l1 ++ l2). rewrite E2, E1, app_assoc. repeat split; auto.
  - apply Forall_app. split; auto. rewrite <- F1. auto.
  - rewrite map_app, concat_app. congruence.
Qed.

Lemma u64_wrap a b : u64 (a + wrap64 b) = u64 (a + b).
Proof.
  destruct (wrap64_k b) as [k ->]. unfold u64. replace (a + (b + k * 2 ^ 64)) with (a + b + k * 2 ^ 64) by ring.
  apply Z.mod_add. lia.
Qed.

Lemma u64_shift a i : u64 (a + wrap64 (i + 1)) = u64 (a + (wrap64 (wrap64 (i + 1) + 1) - 1)).
Proof.
  rewrite u64_wrap. destruct (wrap64_k (i + 1)) as [k E]. rewrite E.
  destruct (wrap64_k (i + 1 + k * 2 ^ 64 + 1)) as [k' E']. rewrite E'. unfold u64.
  replace (a + (i + 1 + k * 2 ^ 64 + 1 + k' * 2 ^ 64 - 1)) with (a + (i + 1) + (k + k') * 2 ^ 64) by ring.
  symmetry. apply Z.mod_add. lia.
Qed.

Lemma string_at_u64 m : forall s a b, u64 a = u64 b -> string_at m a s -> string_at m b s.
Proof.
  induction s as [|c s IH]; cbn [string_at]; intros a b E; fold (u64 a) (u64 b); rewrite E; auto.
  intros (H1 & H2 & H3). repeat split; auto. apply (IH (a + 1)); auto.
  unfold u64 in *. rewrite (Zplus_mod a), E, <- Zplus_mod. reflexivity.
Qed.

Lemma string_at_next m a i c s : string_at m (a + i) (c :: s) -> string_at m (a + wrap64 (i + 1)) s.
Proof.
  intros (_ & _ & H). eapply string_at_u64; [|exact H]. rewrite u64_wrap. f_equal. lia.
Qed.

(** The characters printed faithfully: all of them where plain char is
    unsigned, the 7-bit ones otherwise. *)
Definition plain (sc : bool) (c : ascii) : Prop := sc = false \/ seven c.

Lemma char_val_plain sc c : plain sc c -> char_val sc c = code c.
Proof.
  unfold plain, seven, char_val. intros [-> | H]; [reflexivity|].
  destruct (Z.leb_spec 128 (code c)); [lia|]. rewrite andb_false_r. reflexivity.
Qed.

Lemma plain7 sc c : code c < 128 -> plain sc c.
Proof. now right. Qed.

Lemma b_char_at sc a i c s w : string_at (w_mem w) (a + i) (c :: s) ->
  b_char sc a i w = Done (char_val sc c) w.
Proof. intros (_ & H & _). unfold b_char, rbind, peek, rret. unfold u64. rewrite H. reflexivity. Qed.

Lemma b_char_end sc a i w : string_at (w_mem w) (a + i) [] -> b_char sc a i w = Done 0 w.
Proof.
  cbn [string_at]. intros H. unfold b_char, rbind, peek, rret. unfold u64. rewrite H.
  unfold char_val. cbn. destruct sc; reflexivity.
Qed.

Lemma code_not0 c : c <> NUL -> code c <> 0.
Proof. intros H E. apply H, code_inj. rewrite E. reflexivity. Qed.

Lemma b_write_char c w : b_write (code c) w = Done tt (wrote w [c]).
Proof. apply b_write_packed, packed_byte. Qed.

Lemma prints_loop_spec sc x : forall s j w, Forall (plain sc) s -> string_at (w_mem w) (x + j) s ->
  exists w', prints w s w' /\
    forall n, (List.length s < n)%nat -> prints_loop n sc x j w = Done tt w'.
Proof.
  induction s as [|c s IH]; intros j w HS HA.
  - exists w. split; [apply prints_nil|]. intros [|n] Hn; [lia|]. cbn [prints_loop].
    unfold rbind at 1. rewrite b_char_end by auto. reflexivity.
  - inversion HS; subst.
    destruct (IH (wrap64 (j + 1)) (wrote w [c])) as (w' & P & E); auto.
    { cbn [wrote w_mem]. eapply string_at_next; eauto. }
    exists w'. split. { apply (prints_trans _ [c] _ s _ (prints_wrote w [c]) P). }
    intros [|n] Hn; [lia|]. cbn [prints_loop].
    unfold rbind at 1. rewrite (b_char_at _ _ _ _ _ _ HA).
    rewrite char_val_plain by auto.
    destruct (Z.eqb_spec (code c) 0) as [E0|_]; [exfalso; revert E0; apply code_not0, HA|].
    unfold rbind at 1. rewrite b_write_char. apply E. cbn in Hn. lia.
Qed.

Lemma printable_char ok m c r args : c <> "%"%char -> printable ok m (c :: r) args -> ok c /\ printable ok m r args.
Proof.
  intros H. destruct r as [|c2 r]; cbn [printable].
  - auto.
  - destruct (Ascii.eqb_spec c "%"); [congruence|]. auto.
Qed.

Lemma word_neg x : word x -> x <> - 2 ^ 63 -> x < 0 -> wrap64 (- x) = - x /\ word (- x).
Proof. unfold word. intros. split; [apply wrap64_id|]; lia. Qed.

Lemma string_at_inj m : forall s t a, string_at m a s -> string_at m a t -> s = t.
Proof.
  induction s as [|c s IH]; intros [|d t] a; cbn [string_at]; auto.
  - intros E (N & E2 & _). congruence.
  - intros (N & E2 & _) E. congruence.
  - intros (N1 & E1 & H1) (N2 & E2 & H2). f_equal; [congruence|eauto].
Qed.

(** The value tested by the switch. *)
Lemma code_is c d : Z.eqb (code c) (code d) = Ascii.eqb c d.
Proof. symmetry. apply eqb_code. Qed.

Lemma printf_loop_spec sc fmt argf : forall s args out m, shows m s args out ->
  forall i ap w, w_mem w = m ->
  (forall k x, nth_error args k = Some x -> argf (ap + k)%nat = x) ->
  printable (plain sc) m s args -> string_at m (fmt + i) s ->
  exists n0 w', prints w out w' /\
    forall n, (n0 <= n)%nat -> printf_loop n sc fmt i argf ap w = Done tt w'.
Proof.
  intros s args out m H. induction H; intros i ap w Hm Ha HP HA; subst m.
  - (* end *)
    exists 1%nat, w. split; [apply prints_nil|]. intros [|n] Hn; [lia|]. cbn [printf_loop]. unfold rbind at 1.
    rewrite b_char_end by auto. reflexivity.
  - (* plain character *)
    destruct (printable_char _ _ _ _ _ H HP) as [HS HP'].
    destruct (IHshows (wrap64 (i + 1)) ap (wrote w [c])) as (n0 & w' & P & IH); auto.
    { eapply string_at_next; eauto. }
    exists (S n0), w'. split. { apply (prints_trans _ [c] _ o _ (prints_wrote w [c]) P). }
    intros [|n] Hn; [lia|]. cbn [printf_loop]. unfold rbind at 1.
    rewrite (b_char_at _ _ _ _ _ _ HA), char_val_plain by auto. cbv zeta.
    change 37 with (code "%"). rewrite code_is. destruct (Ascii.eqb_spec c "%"); [congruence|].
    destruct (Z.eqb_spec (code c) 0) as [E|_]; [exfalso; revert E; apply code_not0, HA|].
    unfold rbind at 1. rewrite b_write_char. apply IH; lia.
  - (* %d *)
    cbn [printable Ascii.eqb Bool.eqb orb] in HP. destruct HP as (HW & HM & HP).
    assert (A1 := string_at_next _ _ _ _ _ HA). assert (A2 := string_at_next _ _ _ _ _ A1).
    pose proof (Ha 0%nat x eq_refl) as Hx. rewrite Nat.add_0_r in Hx.
    assert (Ha' : forall k y, nth_error args k = Some y -> argf (S ap + k)%nat = y).
    { intros k y Hk. rewrite <- (Ha (S k) y) by auto. f_equal. lia. }
    unfold signed_numeral in H.
    assert (exists w1, (forall B (k : R B), ((if x <? 0 then b_write 45 >> b_printd (wrap64 (- x)) else b_printd x) >> k) w = k w1)
            /\ prints w d w1) as (w1 & E1 & P1).
    { destruct (Z.ltb_spec x 0).
      - destruct H as (d' & -> & HN). destruct (word_neg x HW HM ltac:(auto)) as [-> HW'].
        destruct (b_printd_spec (- x) (wrote w ["-"%char]) HW') as (s & HN' & E).
        exists (wrote (wrote w ["-"%char]) s). split.
        + intros B k. unfold rbind. change 45 with (code "-"). rewrite b_write_char, E. reflexivity.
        + apply (prints_trans _ ["-"%char] (wrote w ["-"%char])).
          * apply prints_wrote.
          * replace d' with s; [apply prints_wrote|]. unfold signed_numeral in HN'.
            destruct (Z.ltb_spec (- x) 0); [lia|]. eapply numeral_unique; eauto. lia.
      - destruct (b_printd_spec x w HW) as (s & HN' & E).
        exists (wrote w s). split.
        + intros B k. unfold rbind. rewrite E. reflexivity.
        + replace d with s; [apply prints_wrote|]. unfold signed_numeral in HN'.
          destruct (Z.ltb_spec x 0); [lia|]. eapply numeral_unique; eauto. lia. }
    edestruct (fun hm ha => IHshows _ (S ap) w1 hm ha HP A2) as (n0 & w' & P & IH); [apply P1|auto|].
    exists (S n0), w'. split. { eapply prints_trans; [|exact P]; auto using prints_wrote. }
    intros [|n] Hn; [lia|]. cbn [printf_loop]. unfold rbind at 1.
    rewrite (b_char_at _ _ _ _ _ _ HA), char_val_plain by (apply plain7; cbn; lia). cbv zeta.
    change (code "%" =? 37) with true. cbv iota. unfold rbind at 1.
    rewrite (b_char_at _ _ _ _ _ _ A1), char_val_plain by (apply plain7; cbn; lia).
    change (code "d" =? 100) with true. cbv iota. rewrite Hx, E1.
    apply IH; lia.
  - (* %o *)
    cbn [printable Ascii.eqb Bool.eqb orb] in HP. destruct HP as (HW & HM & HP).
    assert (A1 := string_at_next _ _ _ _ _ HA). assert (A2 := string_at_next _ _ _ _ _ A1).
    pose proof (Ha 0%nat x eq_refl) as Hx. rewrite Nat.add_0_r in Hx.
    assert (Ha' : forall k y, nth_error args k = Some y -> argf (S ap + k)%nat = y).
    { intros k y Hk. rewrite <- (Ha (S k) y) by auto. f_equal. lia. }
    unfold signed_numeral in H.
    assert (exists w1, (forall B (k : R B), ((if x <? 0 then b_write 45 >> b_printo (wrap64 (- x)) else b_printo x) >> k) w = k w1)
            /\ prints w d w1) as (w1 & E1 & P1).
    { destruct (Z.ltb_spec x 0).
      - destruct H as (d' & -> & HN). destruct (word_neg x HW HM ltac:(auto)) as [-> HW'].
        destruct (b_printo_spec (- x) (wrote w ["-"%char])) as (s & HN' & E).
        exists (wrote (wrote w ["-"%char]) s). split.
        + intros B k. unfold rbind. change 45 with (code "-"). rewrite b_write_char, E. reflexivity.
        + apply (prints_trans _ ["-"%char] (wrote w ["-"%char])).
          * apply prints_wrote.
          * replace d' with s; [apply prints_wrote|]. unfold word in HW'.
            rewrite Z.mod_small in HN' by lia. eapply numeral_unique; eauto. lia.
      - destruct (b_printo_spec x w) as (s & HN' & E).
        exists (wrote w s). split.
        + intros B k. unfold rbind. rewrite E. reflexivity.
        + replace d with s; [apply prints_wrote|]. unfold word in HW.
          rewrite Z.mod_small in HN' by lia. eapply numeral_unique; eauto. lia. }
    edestruct (fun hm ha => IHshows _ (S ap) w1 hm ha HP A2) as (n0 & w' & P & IH); [apply P1|auto|].
    exists (S n0), w'. split. { eapply prints_trans; [|exact P]; auto using prints_wrote. }
    intros [|n] Hn; [lia|]. cbn [printf_loop]. unfold rbind at 1.
    rewrite (b_char_at _ _ _ _ _ _ HA), char_val_plain by (apply plain7; cbn; lia). cbv zeta.
    change (code "%" =? 37) with true. cbv iota. unfold rbind at 1.
    rewrite (b_char_at _ _ _ _ _ _ A1), char_val_plain by (apply plain7; cbn; lia).
    change (code "o" =? 100) with false. change (code "o" =? 111) with true. cbv iota. rewrite Hx, E1.
    apply IH; lia.
  - (* %c *)
    cbn [printable Ascii.eqb Bool.eqb orb] in HP.
    assert (A1 := string_at_next _ _ _ _ _ HA). assert (A2 := string_at_next _ _ _ _ _ A1).
    pose proof (Ha 0%nat x eq_refl) as Hx. rewrite Nat.add_0_r in Hx.
    assert (Ha' : forall k y, nth_error args k = Some y -> argf (S ap + k)%nat = y).
    { intros k y Hk. rewrite <- (Ha (S k) y) by auto. f_equal. lia. }
    edestruct (fun hm ha => IHshows _ (S ap) (wrote w d) hm ha HP A2) as (n0 & w' & P & IH); [auto|auto|].
    exists (S n0), w'. split. { eapply prints_trans; [|exact P]; auto using prints_wrote. }
    intros [|n] Hn; [lia|]. cbn [printf_loop]. unfold rbind at 1.
    rewrite (b_char_at _ _ _ _ _ _ HA), char_val_plain by (apply plain7; cbn; lia). cbv zeta.
    change (code "%" =? 37) with true. cbv iota. unfold rbind at 1.
    rewrite (b_char_at _ _ _ _ _ _ A1), char_val_plain by (apply plain7; cbn; lia).
    change (code "c" =? 100) with false. change (code "c" =? 111) with false. change (code "c" =? 99) with true.
    cbv iota. unfold rbind at 1. rewrite Hx, (b_write_packed _ _ _ H).
    apply IH; lia.
  - (* %s *)
    cbn [printable Ascii.eqb Bool.eqb orb] in HP. destruct HP as ((s' & HS & HSV) & HP).
    assert (s' = s) as -> by (eapply string_at_inj; eauto).
    assert (A1 := string_at_next _ _ _ _ _ HA). assert (A2 := string_at_next _ _ _ _ _ A1).
    pose proof (Ha 0%nat x eq_refl) as Hx. rewrite Nat.add_0_r in Hx.
    assert (Ha' : forall k y, nth_error args k = Some y -> argf (S ap + k)%nat = y).
    { intros k y Hk. rewrite <- (Ha (S k) y) by auto. f_equal. lia. }
    destruct (prints_loop_spec sc x s 0 w) as (w1 & P1 & E1); auto.
    { rewrite Z.add_0_r; auto. }
    edestruct (fun hm ha => IHshows _ (S ap) w1 hm ha HP A2) as (n0 & w' & P & IH); [apply P1|auto|].
    exists (S (S (List.length s) + n0)), w'. split. { eapply prints_trans; eauto. }
    intros [|n] Hn; [lia|]. cbn [printf_loop]. unfold rbind at 1.
    rewrite (b_char_at _ _ _ _ _ _ HA), char_val_plain by (apply plain7; cbn; lia). cbv zeta.
    change (code "%" =? 37) with true. cbv iota. unfold rbind at 1.
    rewrite (b_char_at _ _ _ _ _ _ A1), char_val_plain by (apply plain7; cbn; lia).
    change (code "s" =? 100) with false. change (code "s" =? 111) with false. change (code "s" =? 99) with false.
    change (code "s" =? 115) with true. cbv iota. unfold rbind at 1. rewrite Hx, E1 by lia. apply IH; lia.
  - (* %% *)
    cbn [printable Ascii.eqb Bool.eqb orb] in HP.
    assert (A1 := string_at_next _ _ _ _ _ HA). assert (A2 := string_at_next _ _ _ _ _ A1).
    edestruct (fun hm ha => IHshows _ ap (wrote w ["%"%char]) hm ha HP A2) as (n0 & w' & P & IH); [auto|auto|].
    exists (S n0), w'. split. { apply (prints_trans _ _ _ o _ (prints_wrote w ["%"%char]) P). }
    intros [|n] Hn; [lia|]. cbn [printf_loop]. unfold rbind at 1.
    rewrite (b_char_at _ _ _ _ _ _ HA), char_val_plain by (apply plain7; cbn; lia). cbv zeta.
    change (code "%" =? 37) with true. cbv iota. unfold rbind at 1.
    rewrite (b_char_at _ _ _ _ _ _ A1), char_val_plain by (apply plain7; cbn; lia).
    change (code "%" =? 100) with false. change (code "%" =? 111) with false. change (code "%" =? 99) with false.
    change (code "%" =? 115) with false. change (code "%" =? 37) with true. cbv iota. unfold rbind at 1.
    change 37 with (code "%"). rewrite b_write_char. apply IH; lia.
  - (* unknown conversion *)
    assert (HP' : printable (plain sc) (w_mem w) (c :: r) args).
    { cbn [printable] in HP. change (Ascii.eqb "%" "%") with true in HP. cbv iota in HP.
      cbn [In] in H.
      destruct (Ascii.eqb_spec c "d"); [subst; tauto|]. destruct (Ascii.eqb_spec c "o"); [subst; tauto|].
      destruct (Ascii.eqb_spec c "c"); [subst; tauto|]. destruct (Ascii.eqb_spec c "s"); [subst; tauto|].
      cbn [orb] in HP. destruct (Ascii.eqb_spec c "%") as [?|N]; [subst; tauto|]. apply Ascii.eqb_neq in N. destruct r; cbn [printable]; [exact HP|]. rewrite N. exact HP. }
    assert (N : c <> "%"%char) by (intros E; subst; cbn in H; tauto).
    assert (Hc : plain sc c) by apply (printable_char _ _ _ _ _ N HP').
    assert (A1 := string_at_next _ _ _ _ _ HA).
    destruct (IHshows (wrap64 (wrap64 (wrap64 (i + 1) + 1) - 1)) ap (wrote w ["%"%char])) as (n0 & w' & P & IH); auto.
    { eapply string_at_u64; [|exact A1]. rewrite (u64_shift fmt i), !u64_wrap. reflexivity. }
    exists (S n0), w'. split. { apply (prints_trans _ _ _ o _ (prints_wrote w ["%"%char]) P). }
    intros [|n] Hn; [lia|]. cbn [printf_loop]. unfold rbind at 1.
    rewrite (b_char_at _ _ _ _ _ _ HA), char_val_plain by (apply plain7; cbn; lia). cbv zeta.
    change (code "%" =? 37) with true. cbv iota. unfold rbind at 1.
    rewrite (b_char_at _ _ _ _ _ _ A1), char_val_plain by auto.
    change 100 with (code "d"). change 111 with (code "o"). change 99 with (code "c"). change 115 with (code "s").
    change 37 with (code "%"). rewrite !code_is. cbn [In] in H.
    destruct (Ascii.eqb_spec c "d"); [subst; tauto|]. destruct (Ascii.eqb_spec c "o"); [subst; tauto|].
    destruct (Ascii.eqb_spec c "c"); [subst; tauto|]. destruct (Ascii.eqb_spec c "s"); [subst; tauto|].
    destruct (Ascii.eqb_spec c "%"); [subst; tauto|]. unfold rbind at 1. rewrite b_write_char. apply IH; lia.
  - (* a lone % at the end *)
    assert (A1 := string_at_next _ _ _ _ _ HA).
    exists 2%nat, (wrote w ["%"%char]). split; [apply prints_wrote|].
    intros [|[|n]] Hn; [lia..|]. cbn [printf_loop]. unfold rbind at 1.
    rewrite (b_char_at _ _ _ _ _ _ HA), char_val_plain by (apply plain7; cbn; lia). cbv zeta.
    change (code "%" =? 37) with true. cbv iota. unfold rbind at 1.
    rewrite (b_char_end _ _ _ _ A1).
    change (0 =? 100) with false. change (0 =? 111) with false. change (0 =? 99) with false.
    change (0 =? 115) with false. change (0 =? 37) with false. cbv iota. unfold rbind at 1.
    change 37 with (code "%"). rewrite b_write_char. unfold rbind at 1. rewrite b_char_end; [reflexivity|].
    cbn [wrote w_mem]. eapply string_at_u64; [|exact A1]. rewrite (u64_shift fmt i), !u64_wrap. reflexivity.
Qed.

Lemma b_printf_spec sc fmt argf s args out w : string_at (w_mem w) fmt s ->
  shows (w_mem w) s args out -> printable (plain sc) (w_mem w) s args ->
  (forall k x, nth_error args k = Some x -> argf k = x) ->
  exists n0 w', prints w out w' /\ forall n, (n0 <= n)%nat -> b_printf n sc fmt argf w = Done tt w'.
Proof.
  intros HA HS HP Ha. unfold b_printf. eapply printf_loop_spec; eauto. rewrite Z.add_0_r. auto.
Qed.
