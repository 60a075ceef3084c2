(** * Exec: running compiled programs
    An interpreter of the generated code, fast enough to run real programs
    inside Coq: the machine of IRSem.v on a memory held in search trees, linked
    with the library of Process.v. [ecall_sound] proves that what it computes is
    what the machine does. It is used in Suite.v to run the repository's own
    tests on the model. *)
From Coq Require Import List Ascii String ZArith Bool Lia FMapPositive.
From Verif Require Import Base IR SpecSem SemFacts MemFacts IRSem Runtime LoopBound Process.
Import ListNotations.
Open Scope list_scope.
Open Scope Z_scope.

(** [wrap64], not computing the powers again and again. *)
Definition wrap (z : Z) : Z :=
  if (-9223372036854775808 <=? z) && (z <? 9223372036854775808) then z
  else (z + 9223372036854775808) mod 18446744073709551616 - 9223372036854775808.
Lemma wrap_ok z : wrap64 z = wrap z.
Proof.
  unfold wrap. destruct ((-9223372036854775808 <=? z) && (z <? 9223372036854775808)) eqn:R; [|reflexivity].
  apply andb_true_iff in R. destruct R as [R1 R2]. apply Z.leb_le in R1. apply Z.ltb_lt in R2. apply wrap64_id. lia.
Qed.
Definition xbin (op : binop) (a b : Z) : option Z :=
  match op with
  | OAdd => Some (wrap (a + b))
  | OSub => Some (wrap (a - b))
  | OMul => Some (wrap (a * b))
  | _ => ir_bin op a b
  end.
Lemma xbin_ok op a b : ir_bin op a b = xbin op a b.
Proof. destruct op; cbn [ir_bin xbin]; rewrite ?wrap_ok; reflexivity. Qed.

(** ** Memory *)
(** The words in use by their number (address / 8), and the objects. *)
Record emem := mkE { e_word : PositiveMap.t Z; e_stack : list (Z * Z); e_static : list (Z * Z) }.
Definition key (a : Z) : positive := Z.to_pos (a / 8).
Definition ebyte (t : PositiveMap.t Z) (x : Z) : option Z :=
  if 8 <=? x then
    match PositiveMap.find (key x) t with
    | Some z => Some ((z / 256 ^ (x mod 8)) mod 256)
    | None => None
    end
  else None.
(** The memory of SpecSem.v it stands for. *)
Definition abs (e : emem) : memory := mkMem (ebyte (e_word e)) (e_stack e) (e_static e).
Definition same (e : emem) (m : memory) : Prop :=
  (forall x, m_byte m x = ebyte (e_word e) x) /\ m_stack m = e_stack e /\ m_static m = e_static e.
Definition within (a n : Z) (e : emem) : bool := existsb (covers a n) (e_stack e) || existsb (covers a n) (e_static e).
Definition eload (e : emem) (a : Z) : option Z :=
  if (a mod 8 =? 0) && (8 <=? a) && within a 8 e then
    match PositiveMap.find (key a) (e_word e) with Some z => Some (wrap z) | None => None end
  else None.
Definition estore (e : emem) (a z : Z) : option emem :=
  if (a mod 8 =? 0) && (8 <=? a) && within a 8 e then
    Some (mkE (PositiveMap.add (key a) z (e_word e)) (e_stack e) (e_static e))
  else None.
Fixpoint forget (n : nat) (k : positive) (t : PositiveMap.t Z) : PositiveMap.t Z :=
  match n with O => t | S n' => forget n' (Pos.succ k) (PositiveMap.remove k t) end.
Definition ealloc (a n : Z) (e : emem) : option emem :=
  if (a mod 8 =? 0) && (8 <=? a) && (n mod 8 =? 0) && (0 <=? n) then
    Some (mkE (forget (Z.to_nat (n / 8)) (key a) (e_word e)) ((a, n) :: e_stack e) (e_static e))
  else None.
(** One byte of a word that is in use. *)
Definition estore_byte (e : emem) (a z : Z) : option emem :=
  if (8 <=? a) && within a 1 e then
    match PositiveMap.find (key a) (e_word e) with
    | Some y => let p := 256 ^ (a mod 8) in
                Some (mkE (PositiveMap.add (key a) (y + p * (z mod 256 - (y / p) mod 256)) (e_word e)) (e_stack e) (e_static e))
    | None => None
    end
  else None.

Lemma same_abs e : same e (abs e).
Proof. repeat split. Qed.
Lemma within_accessible e m a n : same e m -> accessible m a n = within a n e.
Proof. intros (_ & S1 & S2). unfold accessible, within. rewrite existsb_app, S1, S2. reflexivity. Qed.
Lemma key_in a x : a mod 8 = 0 -> a <= x < a + 8 -> x / 8 = a / 8 /\ x mod 8 = x - a.
Proof.
  intros A L. assert (x = 8 * (a / 8) + (x - a)) by (pose proof (Z.div_mod a 8); lia).
  split; [symmetry; apply (Z.div_unique _ _ _ (x - a)); lia|symmetry; apply (Z.mod_unique _ _ (a / 8)); lia].
Qed.
Lemma digits z : word_of (fun x => Some ((z / 256 ^ x) mod 256)) 0 8 = Some (z mod 2 ^ 64).
Proof.
  cbn [word_of]. f_equal.
  change (2 ^ 64) with (256 ^ 8).
  assert (D : forall k, 0 <= k -> z / 256 ^ (k + 1) = z / 256 ^ k / 256) by (intros k Lk; rewrite Z.pow_add_r, Z.div_div by lia; reflexivity).
  assert (M : forall k, 0 <= k -> z mod 256 ^ (k + 1) = z mod 256 ^ k + 256 ^ k * ((z / 256 ^ k) mod 256)).
  { intros k Lk. rewrite Z.pow_add_r, Z.pow_1_r by lia. rewrite Z.rem_mul_r by (try apply Z.pow_nonzero; lia). reflexivity. }
  pose proof (M 7 ltac:(lia)) as M7. pose proof (M 6 ltac:(lia)) as M6. pose proof (M 5 ltac:(lia)) as M5. pose proof (M 4 ltac:(lia)) as M4.
  pose proof (M 3 ltac:(lia)) as M3. pose proof (M 2 ltac:(lia)) as M2. pose proof (M 1 ltac:(lia)) as M1. pose proof (M 0 ltac:(lia)) as M0.
  clear M D. change (0 + 1) with 1 in *. change (1 + 1) with 2 in *. change (2 + 1) with 3 in *. change (3 + 1) with 4 in *.
  change (4 + 1) with 5 in *. change (5 + 1) with 6 in *. change (6 + 1) with 7 in *. change (7 + 1) with 8 in *.
  rewrite M7, M6, M5, M4, M3, M2, M1, M0. clear. change (256 ^ 0) with 1. rewrite Z.mod_1_r.
  repeat match goal with |- context[256 ^ ?k] => let v := eval vm_compute in (256 ^ k) in change (256 ^ k) with v end. ring.
Qed.
Lemma word_of_shift f a : forall n b, word_of (fun x => f (x - a)) (a + b) n = word_of f b n.
Proof.
  induction n as [|n IH]; intros b; cbn [word_of]; auto. rewrite <- Z.add_assoc, IH. replace (a + b - a) with b by lia. reflexivity.
Qed.
Lemma key_other x y : 8 <= x -> 8 <= y -> x / 8 <> y / 8 -> key x <> key y.
Proof.
  intros Lx Ly N E. apply N. unfold key in E. assert (0 < x / 8) by (apply Z.div_str_pos; lia). assert (0 < y / 8) by (apply Z.div_str_pos; lia).
  rewrite <- (Z2Pos.id (x / 8)), <- (Z2Pos.id (y / 8)) by lia. congruence.
Qed.
Lemma eload_ok e m a z : same e m -> eload e a = Some z -> load m a = Some z.
Proof.
  intros S E. unfold eload in E. destruct (a mod 8 =? 0) eqn:A; [|discriminate]. destruct (8 <=? a) eqn:L8; [|discriminate].
  unfold load, word_ok. rewrite (within_accessible e), A by auto. cbn [andb] in *. destruct (within a 8 e); [|discriminate].
  apply Z.eqb_eq in A. apply Z.leb_le in L8.
  destruct (PositiveMap.find (key a) (e_word e)) as [y|] eqn:F; [|discriminate]. injection E as <-.
  rewrite (word_of_ext _ (fun x => (fun x => Some ((y / 256 ^ x) mod 256)) (x - a))).
  - replace (word_of _ a 8) with (word_of (fun x => Some ((y / 256 ^ x) mod 256)) 0 8).
    + rewrite digits, wrap64_mod, wrap_ok. reflexivity.
    + symmetry. rewrite <- (word_of_shift _ a 8 0), Z.add_0_r. reflexivity.
  - intros x Lx. change (Z.of_nat 8) with 8 in Lx. destruct S as (S & _). rewrite S. unfold ebyte. replace (8 <=? x) with true by (symmetry; apply Z.leb_le; lia).
    destruct (key_in a x A Lx) as [K1 K2]. unfold key in *. rewrite K1, K2, F. reflexivity.
Qed.
Lemma estore_ok e m a z e' : same e m -> estore e a z = Some e' -> exists m', store m a z = Some m' /\ same e' m'.
Proof.
  intros S E. unfold estore in E. destruct (a mod 8 =? 0) eqn:A; [|discriminate]. destruct (8 <=? a) eqn:L8; [|discriminate].
  unfold store, word_ok. rewrite (within_accessible e), A by auto. cbn [andb] in *. destruct (within a 8 e); [|discriminate].
  apply Z.eqb_eq in A. apply Z.leb_le in L8. injection E as <-. eexists. split; [reflexivity|]. destruct S as (S1 & S2 & S3).
  split; [|split; auto]. intros x. cbn [m_byte e_word]. unfold ebyte.
  destruct ((a <=? x) && (x <? a + 8)) eqn:R.
  - apply andb_true_iff in R. destruct R as [R1 R2]. apply Z.leb_le in R1. apply Z.ltb_lt in R2.
    replace (8 <=? x) with true by (symmetry; apply Z.leb_le; lia). destruct (key_in a x A ltac:(lia)) as [K1 K2].
    unfold key. rewrite K1, K2, PositiveMap.gss. reflexivity.
  - rewrite S1. unfold ebyte. destruct (8 <=? x) eqn:Lx; auto. apply Z.leb_le in Lx. rewrite PositiveMap.gso; auto.
    apply key_other; auto. intros K. pose proof (Z.div_mod a 8). pose proof (Z.div_mod x 8). pose proof (Z.mod_pos_bound x 8).
    apply andb_false_iff in R. rewrite Z.leb_gt, Z.ltb_ge in R. lia.
Qed.
Lemma forget_find : forall n k t j, PositiveMap.find j (forget n k t) =
  if (Pos.leb k j) && (Z.pos j <? Z.pos k + Z.of_nat n) then None else PositiveMap.find j t.
Proof.
  induction n as [|n IH]; intros k t j; cbn [forget].
  - destruct (Pos.leb_spec k j); cbn [andb]; auto. destruct (Z.ltb_spec (Z.pos j) (Z.pos k + Z.of_nat 0)); auto. lia.
  - rewrite IH. destruct (Pos.eq_dec j k) as [->|N].
    + rewrite PositiveMap.grs. rewrite Pos.leb_refl. cbn [andb]. replace (Z.pos k <? Z.pos k + Z.of_nat (S n)) with true by (symmetry; apply Z.ltb_lt; lia).
      destruct (_ && _); reflexivity.
    + rewrite PositiveMap.gro by auto.
      destruct (Pos.leb_spec (Pos.succ k) j), (Pos.leb_spec k j); cbn [andb]; try lia.
      * destruct (Z.ltb_spec (Z.pos j) (Z.pos (Pos.succ k) + Z.of_nat n)), (Z.ltb_spec (Z.pos j) (Z.pos k + Z.of_nat (S n))); auto; lia.
      * reflexivity.
Qed.
Lemma ealloc_ok e m a n e' : same e m -> ealloc a n e = Some e' ->
  same e' (mkMem (fun x => if (a <=? x) && (x <? a + n) then None else m_byte m x) ((a, n) :: m_stack m) (m_static m)).
Proof.
  intros (S1 & S2 & S3) E. unfold ealloc in E. destruct (a mod 8 =? 0) eqn:A; [|discriminate]. destruct (8 <=? a) eqn:L8; [|discriminate].
  destruct (n mod 8 =? 0) eqn:A2; [|discriminate]. destruct (0 <=? n) eqn:L0; [|discriminate]. cbn [andb] in E. injection E as <-.
  apply Z.eqb_eq in A, A2. apply Z.leb_le in L8, L0.
  split; [|cbn; rewrite S2, S3; auto]. intros x. cbn [m_byte e_word]. rewrite S1. unfold ebyte. destruct (Z.leb_spec 8 x) as [Lx|Lx].
  - rewrite forget_find. unfold key.
    assert (0 < x / 8) by (apply Z.div_str_pos; lia). assert (0 < a / 8) by (apply Z.div_str_pos; lia).
    rewrite !Z2Pos.id, Z2Nat.id by (try apply Z.div_pos; lia).
    pose proof (Z.div_mod a 8). pose proof (Z.div_mod x 8). pose proof (Z.mod_pos_bound x 8). pose proof (Z.div_mod n 8).
    destruct (Pos.leb_spec (Z.to_pos (a / 8)) (Z.to_pos (x / 8))) as [P|P].
    + assert (a / 8 <= x / 8). { rewrite <- (Z2Pos.id (a / 8)), <- (Z2Pos.id (x / 8)) by lia. lia. }
      cbn [andb]. destruct (Z.ltb_spec (x / 8) (a / 8 + n / 8)), (Z.leb_spec a x), (Z.ltb_spec x (a + n)); cbn [andb]; auto; lia.
    + assert (x / 8 < a / 8). { rewrite <- (Z2Pos.id (a / 8)), <- (Z2Pos.id (x / 8)) by lia. lia. }
      cbn [andb]. destruct (Z.leb_spec a x); cbn [andb]; auto; lia.
  - destruct (Z.leb_spec a x); cbn [andb]; auto. lia.
Qed.
Lemma digit_other y p q d : 0 < p -> 0 < q -> (exists r, 0 < r /\ p = 256 * q * r) \/ (exists r, 0 < r /\ q = 256 * p * r) ->
  0 <= d < 256 -> ((y + p * (d - (y / p) mod 256)) / q) mod 256 = (y / q) mod 256.
Proof.
  intros Lp Lq [(r & Lr & ->)|(r & Lr & ->)] Ld.
  - replace (y + 256 * q * r * (d - (y / (256 * q * r)) mod 256)) with (y + (256 * (r * (d - (y / (256 * q * r)) mod 256))) * q) by ring.
    rewrite Z.div_add by lia. rewrite (Z.mul_comm 256), Z.mod_add by lia. reflexivity.
  - f_equal. replace (256 * p * r) with (p * 256 * r) by ring. rewrite <- !Z.div_div by lia. f_equal.
    rewrite (Z.mul_comm p), Z.div_add by lia. set (u := y / p). pose proof (Z.div_mod u 256). pose proof (Z.mod_pos_bound u 256).
    symmetry. apply (Z.div_unique _ _ _ d); lia.
Qed.
Lemma digit_same y p d : 0 < p -> ((y + p * (d mod 256 - (y / p) mod 256)) / p) mod 256 = d mod 256.
Proof.
  intros Lp. rewrite (Z.mul_comm p), Z.div_add by lia. set (u := y / p). pose proof (Z.div_mod u 256).
  replace (u + (d mod 256 - u mod 256)) with (d mod 256 + (u / 256) * 256) by lia. rewrite Z.mod_add, Z.mod_mod by lia. reflexivity.
Qed.
Lemma estore_byte_ok e m a z e' : same e m -> estore_byte e a z = Some e' -> exists m', store_byte m a z = Some m' /\ same e' m'.
Proof.
  intros S E. unfold estore_byte in E. destruct (8 <=? a) eqn:L8; [|discriminate].
  unfold store_byte. rewrite (within_accessible e) by auto. cbn [andb] in *. destruct (within a 1 e); [|discriminate].
  apply Z.leb_le in L8. destruct (PositiveMap.find (key a) (e_word e)) as [y|] eqn:F; [|discriminate]. cbv zeta in E. injection E as <-.
  eexists. split; [reflexivity|]. destruct S as (S1 & S2 & S3). split; [|split; auto]. intros x. cbn [m_byte e_word].
  pose proof (Z.mod_pos_bound a 8). pose proof (Z.mod_pos_bound x 8). pose proof (Z.mod_pos_bound z 256).
  assert (P : forall k, 0 < 256 ^ (k mod 8)) by (intros k; apply Z.pow_pos_nonneg; [lia|apply Z.mod_pos_bound; lia]).
  destruct (Z.eqb_spec x a) as [->|N].
  - unfold ebyte. replace (8 <=? a) with true by (symmetry; apply Z.leb_le; lia). rewrite PositiveMap.gss, digit_same by auto. reflexivity.
  - rewrite S1. unfold ebyte. destruct (Z.leb_spec 8 x) as [Lx|Lx]; auto.
    destruct (Z.eq_dec (x / 8) (a / 8)) as [D|D].
    + unfold key. rewrite D. fold (key a). rewrite PositiveMap.gss, F. f_equal. symmetry. apply digit_other; auto; [|lia].
      assert (x mod 8 <> a mod 8). { intros K. apply N. rewrite (Z.div_mod x 8), (Z.div_mod a 8) by lia. congruence. }
      assert (X : forall i j, 0 <= i -> i < j -> exists r, 0 < r /\ 256 ^ j = 256 * 256 ^ i * r).
      { intros i j Li Lij. exists (256 ^ (j - i - 1)). split; [apply Z.pow_pos_nonneg; lia|].
        rewrite <- Z.pow_succ_r, <- Z.pow_add_r by lia. f_equal. lia. }
      destruct (Z.lt_ge_cases (x mod 8) (a mod 8)); [left|right]; apply X; lia.
    + rewrite PositiveMap.gso; auto. apply key_other; auto.
Qed.

(** ** The library *)
(** Two worlds that differ only in what had been written before. *)
Definition twin (p : list (Z * list ascii)) (w w2 : world) : Prop :=
  (forall a, w_mem w a = w_mem w2 a) /\ w_fout w = w_fout w2 /\ w_in w = w_in w2 /\ w_out w = p ++ w_out w2.
Definition agree {A} (p : list (Z * list ascii)) (r r2 : cres A) : Prop :=
  match r2 with
  | Runtime.Done a w2 => exists w, r = Runtime.Done a w /\ twin p w w2
  | Exited s w2 => exists w, r = Exited s w /\ twin p w w2
  | _ => True
  end.
Definition alike {A} (p : list (Z * list ascii)) (f : R A) : Prop := forall w w2, twin p w w2 -> agree p (f w) (f w2).
Lemma alike_ret {A} p (a : A) : alike p (rret a).
Proof. intros w w2 T. exists w. auto. Qed.
Lemma alike_bind {A B} p (m : R A) (f : A -> R B) : alike p m -> (forall a, alike p (f a)) -> alike p (rbind m f).
Proof.
  intros Hm Hf w w2 T. unfold rbind. specialize (Hm w w2 T). destruct (m w2); cbn [agree] in *; auto.
  - destruct Hm as (w' & -> & T'). apply Hf, T'.
  - destruct Hm as (w' & -> & T'). exists w'. auto.
Qed.
Lemma alike_if {A} p (b : bool) (f g : R A) : alike p f -> alike p g -> alike p (if b then f else g).
Proof. destruct b; auto. Qed.
Lemma alike_out {A} p : alike p (fun _ : world => @OutOfBounds A). Proof. intros w w2 T. exact Logic.I. Qed.
Lemma alike_bound {A} p : alike p (fun _ : world => @LoopBound A). Proof. intros w w2 T. exact Logic.I. Qed.
Lemma alike_fout p : alike p get_fout.
Proof. intros w w2 T. unfold get_fout. cbn [agree]. destruct T as (T1 & T2 & T3). rewrite T2. exists w. split; auto. repeat split; tauto. Qed.
Lemma alike_sys p fd bs : alike p (sys_write fd bs).
Proof.
  intros w w2 (T1 & T2 & T3 & T4). unfold sys_write. cbn [agree]. eexists. split; [reflexivity|].
  repeat split; cbn; auto. rewrite T4, app_assoc. reflexivity.
Qed.
Lemma alike_char p sc s i : alike p (b_char sc s i).
Proof.
  apply alike_bind; [|intros; apply alike_ret]. intros w w2 T. unfold peek. cbn [agree]. exists w. split; auto. destruct T as (T1 & _). rewrite T1. reflexivity.
Qed.
Ltac alike_step := lazymatch goal with
  | |- alike _ (rret _) => apply alike_ret
  | |- alike _ get_fout => apply alike_fout
  | |- alike _ (sys_write _ _) => apply alike_sys
  | |- alike _ (b_char _ _ _) => apply alike_char
  | |- alike _ (fun _ => OutOfBounds) => apply alike_out
  | |- alike _ (fun _ => LoopBound) => apply alike_bound
  | |- alike _ (rbind _ _) => apply alike_bind; [|intros]
  | |- alike _ (if _ then _ else _) => apply alike_if
  end.
Lemma alike_write p c : alike p (b_write c).
Proof. unfold b_write. destruct write_loop as [[b q]|]; [destruct slice_buf|]; repeat alike_step. Qed.
Lemma alike_writeb p c : alike p (b_writeb c).
Proof. unfold b_writeb. repeat alike_step. Qed.
Lemma alike_printd p c : alike p (b_printd c).
Proof.
  unfold b_printd. cbv zeta. destruct printd_loop as [[b q]|]; [|apply alike_out].
  match goal with |- alike p (match ?t with _ => _ end) => destruct t as [[b' q']|] end; [destruct slice_buf|]; repeat alike_step.
Qed.
Lemma alike_printo p c : alike p (b_printo c).
Proof. unfold b_printo. destruct printo_loop as [[b q]|]; [destruct slice_buf|]; repeat alike_step. Qed.
Lemma alike_prints p : forall n sc x j, alike p (prints_loop n sc x j).
Proof. induction n as [|n IH]; intros sc x j; cbn [prints_loop]; 
  repeat lazymatch goal with |- alike _ (b_write _) => apply alike_write | |- alike _ (prints_loop _ _ _ _) => apply IH | _ => alike_step end. Qed.
Lemma alike_printf p : forall n sc fmt i args ap, alike p (printf_loop n sc fmt i args ap).
Proof.
  induction n as [|n IH]; intros sc fmt i args ap; cbn [printf_loop]; cbv zeta;
    repeat lazymatch goal with
      | |- alike _ (b_write _) => apply alike_write
      | |- alike _ (b_printd _) => apply alike_printd
      | |- alike _ (b_printo _) => apply alike_printo
      | |- alike _ (prints_loop _ _ _ _) => apply alike_prints
      | |- alike _ (printf_loop _ _ _ _ _ _) => apply IH
      | _ => alike_step end.
Qed.
Lemma alike_read p sc : alike p (b_read sc).
Proof.
  intros w w2 T. assert (T0 := T). destruct T as (T1 & T2 & T3 & T4). unfold b_read. rewrite T3. destruct (w_in w2) as [|[c|] r]; cbn [agree].
  - exists w. split; [reflexivity|exact T0].
  - eexists. split; [reflexivity|]. unfold twin. cbn. auto.
  - eexists. split; [reflexivity|]. unfold twin. cbn. auto.
Qed.
Lemma bytes_at_ext f g : (forall a, f a = g a) -> forall n a, bytes_at f a n = bytes_at g a n.
Proof. intros E. induction n as [|n IH]; intros a; cbn [bytes_at]; auto. rewrite E, IH. reflexivity. Qed.
Lemma alike_nwrite p file buf count : alike p (b_nwrite file buf count).
Proof.
  intros w w2 T. unfold b_nwrite. rewrite (bytes_at_ext (w_mem w) (w_mem w2)) by apply T. apply alike_sys, T.
Qed.
Lemma alike_exit p : alike p b_exit.
Proof. intros w w2 T. exists w. auto. Qed.

(** Only exit ends the process. *)
Definition stays {A} (f : R A) : Prop := forall w c w', f w <> Exited c w'.
Lemma stays_bind {A B} (m : R A) (f : A -> R B) : stays m -> (forall a, stays (f a)) -> stays (rbind m f).
Proof.
  intros Hm Hf w c w'. unfold rbind. destruct (m w) as [a w1|c1 w1| |] eqn:E; try discriminate; [apply Hf|].
  exfalso. eapply Hm. exact E.
Qed.
Lemma stays_if {A} (b : bool) (f g : R A) : stays f -> stays g -> stays (if b then f else g).
Proof. destruct b; auto. Qed.
Ltac stays_step := lazymatch goal with
  | |- stays (rbind _ _) => apply stays_bind; [|intros]
  | |- stays (if _ then _ else _) => apply stays_if
  | |- stays (b_char _ _ _) => intros ? ? ?; discriminate
  | |- stays _ => intros ? ? ?; discriminate
  end.
Lemma stays_write c : stays (b_write c).
Proof. unfold b_write. destruct write_loop as [[b q]|]; [destruct slice_buf|]; repeat stays_step. Qed.
Lemma stays_printd c : stays (b_printd c).
Proof.
  unfold b_printd. cbv zeta. destruct printd_loop as [[b q]|]; [|stays_step].
  match goal with |- stays (match ?t with _ => _ end) => destruct t as [[b' q']|] end; [destruct slice_buf|]; repeat stays_step.
Qed.
Lemma stays_printo c : stays (b_printo c).
Proof. unfold b_printo. destruct printo_loop as [[b q]|]; [destruct slice_buf|]; repeat stays_step. Qed.
Lemma stays_prints : forall n sc x j, stays (prints_loop n sc x j).
Proof.
  induction n as [|n IH]; intros sc x j; cbn [prints_loop];
    repeat lazymatch goal with |- stays (b_write _) => apply stays_write | |- stays (prints_loop _ _ _ _) => apply IH | _ => stays_step end.
Qed.
Lemma printf_no_exit : forall n sc fmt i args ap, stays (printf_loop n sc fmt i args ap).
Proof.
  induction n as [|n IH]; intros sc fmt i args ap; cbn [printf_loop]; cbv zeta;
    repeat lazymatch goal with
      | |- stays (b_write _) => apply stays_write
      | |- stays (b_printd _) => apply stays_printd
      | |- stays (b_printo _) => apply stays_printo
      | |- stays (prints_loop _ _ _ _) => apply stays_prints
      | |- stays (printf_loop _ _ _ _ _ _) => apply IH
      | _ => stays_step end.
Qed.

(** Input, and what has been written, latest first. *)
Record eos := mkEos { s_in : list rd; s_out : list (Z * list ascii) }.
Definition same_os (s : eos) (o : os) : Prop := o_in o = s_in s /\ o_out o = rev (s_out s).
Inductive eres : Type := ERet (z : Z) (e : emem) (s : eos) | EExit (z : Z) (s : eos).
Definition agrees (r : eres) (x : xres os) : Prop :=
  match r, x with
  | ERet z e s, XRet z' m o => z' = z /\ same e m /\ same_os s o
  | EExit z s, XExit z' o => z' = z /\ same_os s o
  | _, _ => False
  end.

Section Running.
Variable K : platform.
Variable fout : Z.
(** The library with at most 65536 turns of the loops of printf. *)
Definition eview (f : Z) (e : emem) (s : eos) : world := view K f (abs e) (mkOs (s_in s) []).
Definition after (s : eos) (w : world) : eos := mkEos (w_in w) (rev_append (w_out w) (s_out s)).
Definition efinish {A} (e : emem) (s : eos) (z : A -> Z) (r : cres A) : option eres :=
  match r with
  | Runtime.Done a w => Some (ERet (z a) e (after s w))
  | Exited c w => Some (EExit c (after s w))
  | _ => None
  end.
Definition eprinting (e : emem) (s : eos) (g : string) (args : list Z) (f : R unit) : option eres :=
  match eload e fout with Some z => efinish e s (fun _ => k_void K g args) (f (eview z e s)) | None => None end.
Definition many : nat := Z.to_nat 65536.
Definition elib (g : string) (args : list Z) (e : emem) (s : eos) : option eres :=
  if String.eqb g "b.write" then eprinting e s g args (b_write (arg K args 0))
  else if String.eqb g "b.writeb" then eprinting e s g args (b_writeb (arg K args 0))
  else if String.eqb g "b.printd" then eprinting e s g args (b_printd (arg K args 0))
  else if String.eqb g "b.printo" then eprinting e s g args (b_printo (arg K args 0))
  else if String.eqb g "b.printf" then
    eprinting e s g args (b_printf many (k_signed K) (arg K args 0) (fun i => arg K args (S i)))
  else if String.eqb g "b.char" then efinish e s (fun z => z) (b_char (k_signed K) (arg K args 0) (arg K args 1) (eview 0 e s))
  else if String.eqb g "b.lchar" then
    match estore_byte e (wrap64 (arg K args 0 + arg K args 1)) (arg K args 2) with
    | Some e' => Some (ERet (k_void K g args) e' s)
    | None => None
    end
  else if String.eqb g "b.read" then efinish e s (fun z => z) (b_read (k_signed K) (eview 0 e s))
  else if String.eqb g "b.nwrite" then
    match b_nwrite (arg K args 0) (arg K args 1) (arg K args 2) (eview 0 e s) with
    | Runtime.Done _ w => Some (ERet (k_written K args) e (after s w))
    | _ => None
    end
  else if String.eqb g "b.flush" then efinish e s (fun _ => k_void K g args) (b_flush (eview 0 e s))
  else if String.eqb g "b.exit" then efinish e s (fun _ => k_void K g args) (b_exit (eview 0 e s))
  else None.

Lemma twin_view f e m s o : same e m -> same_os s o -> twin (rev (s_out s)) (view K f m o) (eview f e s).
Proof.
  intros (S1 & _) (O1 & O2). repeat split; cbn; auto. 2: rewrite app_nil_r; auto.
  intros a. unfold bytes_of. cbn [m_byte abs]. rewrite S1. reflexivity.
Qed.
Lemma after_same s w w2 : twin (rev (s_out s)) w w2 -> same_os (after s w2) (os_of w).
Proof. intros (T1 & T2 & T3 & T4). split; cbn; auto. rewrite T4, rev_append_rev, rev_app_distr, rev_involutive. reflexivity. Qed.
Lemma efinish_unit f g args e m s o r : same e m -> same_os s o -> alike (rev (s_out s)) f ->
  forall z, efinish e s (fun _ => k_void K g args) (f (eview z e s)) = Some r ->
  exists x, finish K g args m (f (view K z m o)) = Some x /\ agrees r x.
Proof.
  intros S O A z E. specialize (A _ _ (twin_view z e m s o S O)). destruct (f (eview z e s)) as [a w2|c w2| |]; try discriminate; cbn [efinish agree] in *;
    destruct A as (w & -> & T); injection E as <-; cbn [finish]; (eexists; split; [reflexivity|]); cbn [agrees]; auto using after_same.
Qed.
Lemma efinish_word f e m s o r : same e m -> same_os s o -> alike (rev (s_out s)) f ->
  efinish e s (fun z => z) (f (eview 0 e s)) = Some r -> exists x, finish_word m (f (view K 0 m o)) = Some x /\ agrees r x.
Proof.
  intros S O A E. specialize (A _ _ (twin_view 0 e m s o S O)). destruct (f (eview 0 e s)) as [a w2|c w2| |]; try discriminate; cbn [efinish agree] in *;
    destruct A as (w & -> & T); injection E as <-; cbn [finish_word]; (eexists; split; [reflexivity|]); cbn [agrees]; auto using after_same.
Qed.
Lemma eprinting_ok f g args e m s o r : same e m -> same_os s o -> alike (rev (s_out s)) f ->
  eprinting e s g args f = Some r -> exists x, printing K fout m o g args f = Some x /\ agrees r x.
Proof.
  intros S O A E. unfold eprinting in E. destruct (eload e fout) as [z|] eqn:LF; [|discriminate].
  unfold printing. rewrite (eload_ok _ _ _ _ S LF). eapply efinish_unit; eauto.
Qed.
Lemma many_turns : (many <= turns 64)%nat.
Proof.
  unfold many, turns. apply Nat2Z.inj_le. rewrite Nat2Z.inj_add, allwords_Z, Z2Nat.id by lia. lia.
Qed.
Lemma printf_many sc fmt args w a w' : b_printf many sc fmt args w = Runtime.Done a w' -> b_printf (turns 64) sc fmt args w = Runtime.Done a w'.
Proof. destruct a. intros E. apply (printf_bound _ _ _ _ _ _ E). unfold turns. reflexivity. Qed.
Local Opaque turns many.
Lemma elib_ok g args e m s o r : same e m -> same_os s o -> elib g args e s = Some r ->
  exists x, library K fout g args m o = Some x /\ agrees r x.
Proof.
  intros SM O E. unfold elib in E. unfold library.
  destruct (String.eqb g "b.write"); [eapply eprinting_ok; eauto using alike_write|].
  destruct (String.eqb g "b.writeb"); [eapply eprinting_ok; eauto using alike_writeb|].
  destruct (String.eqb g "b.printd"); [eapply eprinting_ok; eauto using alike_printd|].
  destruct (String.eqb g "b.printo"); [eapply eprinting_ok; eauto using alike_printo|].
  destruct (String.eqb g "b.printf").
  { destruct (eprinting_ok _ _ _ _ m _ o _ SM O (alike_printf _ _ _ _ _ _ _) E) as (x & P & G). exists x. split; [|exact G].
    unfold printing in *. destruct (load m fout) as [z|]; [|discriminate]. fold (b_printf many (k_signed K) (arg K args 0) (fun i => arg K args (S i))) in P.
    destruct (b_printf many (k_signed K) (arg K args 0) (fun i => arg K args (S i)) (view K z m o)) as [a w|c w| |] eqn:B; try discriminate P.
    - rewrite (printf_many _ _ _ _ _ _ B). exact P.
    - exfalso. eapply printf_no_exit. exact B. }
  destruct (String.eqb g "b.char"); [eapply efinish_word; eauto using alike_char|].
  destruct (String.eqb g "b.lchar").
  { destruct (estore_byte _ _ _) as [e'|] eqn:E2; [|discriminate]. injection E as <-. destruct (estore_byte_ok _ _ _ _ _ SM E2) as (m' & -> & S').
    eexists. split; [reflexivity|]. cbn [agrees]. auto. }
  destruct (String.eqb g "b.read"); [eapply efinish_word; eauto using alike_read|].
  destruct (String.eqb g "b.nwrite").
  { pose proof (alike_nwrite (rev (s_out s)) (arg K args 0) (arg K args 1) (arg K args 2) _ _ (twin_view 0 e m s o SM O)) as A.
    destruct (b_nwrite _ _ _ (eview 0 e s)) as [a w2|c w2| |]; try discriminate. injection E as <-. destruct A as (w & -> & T).
    eexists. split; [reflexivity|]. cbn [agrees]. auto using after_same. }
  destruct (String.eqb g "b.nread") eqn:NR.
  { apply String.eqb_eq in NR. subst g. discriminate E. }
  destruct (String.eqb g "b.flush"); [eapply efinish_unit; eauto using alike_ret|].
  destruct (String.eqb g "b.exit"); [eapply efinish_unit; eauto using alike_exit|]. discriminate.
Qed.
End Running.

(** ** The interpreter *)
Record eframe := mkX { x_blk : nat; x_prev : nat; x_reg : PositiveMap.t Z; x_par : option Z; x_more : list Z; x_va : list Z }.
Definition rkey (r : nat) : positive := Pos.of_succ_nat r.
Definition like (x : eframe) (f : frame) : Prop :=
  fr_blk f = x_blk x /\ fr_prev f = x_prev x /\ (forall r, fr_reg f r = PositiveMap.find (rkey r) (x_reg x)) /\
  fr_par f = x_par x /\ fr_more f = x_more x /\ fr_va f = x_va x.
Definition xset (r : nat) (z : Z) (x : eframe) : eframe :=
  mkX (x_blk x) (x_prev x) (PositiveMap.add (rkey r) z (x_reg x)) (x_par x) (x_more x) (x_va x).
Definition xva (l : list Z) (x : eframe) : eframe := mkX (x_blk x) (x_prev x) (x_reg x) (x_par x) (x_more x) l.
Definition xgoto (b : nat) (x : eframe) : eframe := mkX b (x_blk x) (x_reg x) (x_par x) (x_more x) (x_va x).

Section Interpreter.
Variable K : platform.
Variable fout : Z.
(** The addresses of symbols, the functions at addresses, and the address of
    the next automatic object. *)
Variable sym : string -> Z.
Variable fun_at : Z -> option string.
Variable place : list (Z * Z) -> Z -> option Z.
Variable M : module_.

Definition xoperand (x : eframe) (v : value) : option Z :=
  match v with
  | VInt z => Some z
  | VReg r => PositiveMap.find (rkey r) (x_reg x)
  | VGlob n => Some (sym n)
  | VFun n _ _ => Some (sym n)
  | VParam _ => x_par x
  end.
Fixpoint xoperands (x : eframe) (l : list value) : option (list Z) :=
  match l with
  | [] => Some []
  | v :: r => match xoperand x v, xoperands x r with Some z, Some zs => Some (z :: zs) | _, _ => None end
  end.
Definition xdef (r : nat) (o : option Z) (x : eframe) (e : emem) : option (eframe * emem) :=
  match o with Some z => Some (xset r z x, e) | None => None end.
Definition xplain (i : inst) (x : eframe) (e : emem) : option (eframe * emem) :=
  match i with
  | IAlloca r n => match place (e_stack e) (8 * n) with
                   | Some a => match ealloc a (8 * n) e with Some e' => Some (xset r a x, e') | None => None end
                   | None => None
                   end
  | IAllocaVA r => Some (xset r 0 x, e)
  | ILoad r p => match xoperand x p with Some a => xdef r (eload e a) x e | None => None end
  | IStore v p => match xoperand x v, xoperand x p with
                  | Some z, Some a => match estore e a z with Some e' => Some (x, e') | None => None end
                  | _, _ => None
                  end
  | IBin r op a b => match xoperand x a, xoperand x b with
                     | Some y, Some z => xdef r (xbin op y z) x e
                     | _, _ => None
                     end
  | ICmp r p a b => match xoperand x a, xoperand x b with
                    | Some y, Some z => xdef r (Some (if ir_cmp p y z then 1 else 0)) x e
                    | _, _ => None
                    end
  | IZExt r a | IIntToPtr r a | IPtrToInt r a | IBitCast r a => xdef r (xoperand x a) x e
  | IGepWord r p i => match xoperand x p, xoperand x i with
                      | Some a, Some n => xdef r (Some (wrap (a + 8 * n))) x e
                      | _, _ => None
                      end
  | IGepArr r p sz k => match xoperand x p with Some a => xdef r (Some (a + sz * k)) x e | None => None end
  | ICall _ _ _ _ _ => None
  | IVaStart _ => Some (xva (x_more x) x, e)
  | IVaArg r _ => match x_va x with z :: l => Some (xset r z (xva l x), e) | [] => None end
  | IVaEnd _ => Some (x, e)
  | IPhi r l => match incoming (x_prev x) l with Some v => xdef r (xoperand x v) x e | None => None end
  end.
Definition xcallee (x : eframe) (v : value) : option string :=
  match v with
  | VFun n _ _ => Some n
  | _ => match xoperand x v with Some a => fun_at a | None => None end
  end.
Definition xenter (fn : func) (args : list Z) : option eframe :=
  match f_params fn with
  | [] => Some (mkX 0 0 (PositiveMap.empty Z) None args [])
  | _ :: _ => match args with
              | z :: r => Some (mkX 0 0 (PositiveMap.empty Z) (Some z) r [])
              | [] => None
              end
  end.
(** [erun]: from the instructions [is] and the terminator [t] of the current
    block to the end of the function; [ecall]: a call. *)
Fixpoint erun (n : nat) (F : list block) (is : list inst) (t : option term) (x : eframe) (e : emem) (s : eos) {struct n} : option eres :=
  match n with
  | O => None
  | S n' =>
      match is with
      | ICall r v _ _ args :: is' =>
          match xcallee x v, xoperands x args with
          | Some g, Some zs =>
              match ecall n' g zs e s with
              | Some (ERet z e' s') => erun n' F is' t (xset r z x) e' s'
              | Some (EExit z s') => Some (EExit z s')
              | None => None
              end
          | _, _ => None
          end
      | i :: is' => match xplain i x e with Some (x', e') => erun n' F is' t x' e' s | None => None end
      | [] =>
          match t with
          | Some (TRet v) => match xoperand x v with Some z => Some (ERet z e s) | None => None end
          | Some (TBr b) =>
              match nth_error F b with Some B => erun n' F (b_insts B) (b_term B) (xgoto b x) e s | None => None end
          | Some (TCondBr v bt bf) =>
              match xoperand x v with
              | Some z => let b := if z =? 0 then bf else bt in
                          match nth_error F b with Some B => erun n' F (b_insts B) (b_term B) (xgoto b x) e s | None => None end
              | None => None
              end
          | Some (TSwitch v d l) =>
              match xoperand x v with
              | Some z => let b := choose z d l in
                          match nth_error F b with Some B => erun n' F (b_insts B) (b_term B) (xgoto b x) e s | None => None end
              | None => None
              end
          | None => None
          end
      end
  end
with ecall (n : nat) (g : string) (args : list Z) (e : emem) (s : eos) {struct n} : option eres :=
  match n with
  | O => None
  | S n' =>
      match definition_of g (m_funcs M) with
      | Some fn =>
          match xenter fn args, nth_error (f_blocks fn) 0 with
          | Some x, Some B =>
              match erun n' (f_blocks fn) (b_insts B) (b_term B) x e s with
              | Some (ERet z e' s') => Some (ERet z (mkE (e_word e') (e_stack e) (e_static e')) s')
              | r => r
              end
          | _, _ => None
          end
      | None => elib K fout g args e s
      end
  end.

(** ** It computes what the machine does *)
Variable I : ihost os.
Hypothesis I_sym : forall a, i_sym I a = sym a.
Hypothesis I_fun : forall a, i_fun I a = fun_at a.
Hypothesis I_place : forall m n, i_place I m n = place (m_stack m) n.
Hypothesis I_ext : forall g args m o, i_ext I g args m o = library K fout g args m o.

Lemma rkey_inj r q : rkey r = rkey q -> r = q.
Proof. unfold rkey. intros E. apply SuccNat2Pos.inj in E. exact E. Qed.
Lemma like_set r z x f : like x f -> like (xset r z x) (set_reg r z f).
Proof.
  intros (L1 & L2 & L3 & L4 & L5 & L6). repeat split; cbn; auto. intros q. destruct (Nat.eqb_spec q r) as [->|N].
  - rewrite PositiveMap.gss. reflexivity.
  - rewrite PositiveMap.gso; auto. intros E. apply N, rkey_inj, E.
Qed.
Lemma like_va l x f : like x f -> like (xva l x) (set_va l f).
Proof. intros (L1 & L2 & L3 & L4 & L5 & L6). repeat split; cbn; auto. Qed.
Lemma like_goto b x f : like x f -> like (xgoto b x) (goto_blk b f).
Proof. intros (L1 & L2 & L3 & L4 & L5 & L6). repeat split; cbn; auto. Qed.
Lemma like_next x f : like x f -> like x (next f).
Proof. intros (L1 & L2 & L3 & L4 & L5 & L6). repeat split; cbn; auto. Qed.
Lemma xoperand_ok x f v : like x f -> operand I f v = xoperand x v.
Proof. intros (L1 & L2 & L3 & L4 & L5 & L6). destruct v; cbn; rewrite ?I_sym; auto. Qed.
Lemma xoperands_ok x f l : like x f -> operands I f l = xoperands x l.
Proof. intros L0. induction l as [|v l IH]; cbn; auto. rewrite (xoperand_ok x), IH by auto. reflexivity. Qed.
Lemma xcallee_ok x f v : like x f -> callee I f v = xcallee x v.
Proof.
  intros L0. unfold callee, xcallee. rewrite (xoperand_ok x) by auto. destruct v; auto; destruct xoperand; auto.
Qed.
Lemma xplain_ok i x e x' e' f m : like x f -> same e m -> xplain i x e = Some (x', e') ->
  exists f' m', plain I i f m = Some (f', m') /\ like x' f' /\ same e' m' /\ fr_idx f' = fr_idx f /\ fr_blk f' = fr_blk f.
Proof.
  intros L0 SM E.
  assert (D : forall r o, xdef r o x e = Some (x', e') -> exists f' m', def r o f m = Some (f', m') /\ like x' f' /\ same e' m' /\ fr_idx f' = fr_idx f /\ fr_blk f' = fr_blk f).
  { intros r [z|] E2; [|discriminate]. injection E2 as <- <-. do 2 eexists. split; [reflexivity|]. split; [apply like_set, L0|]. auto. }
  destruct i; cbn [plain xplain] in *; rewrite ?(xoperand_ok x f) by auto; auto.
  - unfold alloc. rewrite I_place. destruct SM as (S1 & S2 & S3). rewrite S2. destruct place as [a|]; [|discriminate].
    destruct ealloc as [e2|] eqn:E2; [|discriminate]. injection E as <- <-. do 2 eexists. split; [reflexivity|]. split; [apply like_set, L0|].
    split; auto. rewrite <- S2. apply (ealloc_ok e); auto. split; auto.
  - injection E as <- <-. do 2 eexists. split; [reflexivity|]. split; [apply like_set, L0|]. auto.
  - destruct xoperand as [a|]; [|discriminate]. destruct (eload e a) as [z|] eqn:E2; [|discriminate]. rewrite (eload_ok e m a z SM E2). apply D. auto.
  - destruct (xoperand x v) as [z|]; [|discriminate]. destruct (xoperand x p) as [a|]; [|discriminate].
    destruct (estore e a z) as [e2|] eqn:E2; [|discriminate]. injection E as <- <-. destruct (estore_ok _ _ _ _ _ SM E2) as (m' & -> & S').
    do 2 eexists. split; [reflexivity|]. auto.
  - destruct (xoperand x a) as [y|]; [|discriminate]. destruct (xoperand x b) as [z|]; [|discriminate]. rewrite xbin_ok. apply D, E.
  - destruct (xoperand x a) as [y|]; [|discriminate]. destruct (xoperand x b) as [z|]; [|discriminate]. apply D, E.
  - destruct (xoperand x p) as [y|]; [|discriminate]. destruct (xoperand x i) as [z|]; [|discriminate]. rewrite wrap_ok. apply D, E.
  - destruct (xoperand x p) as [y|]; [|discriminate]. apply D, E.
  - discriminate.
  - injection E as <- <-. do 2 eexists. split; [reflexivity|]. destruct L0 as (L1 & L2 & L3 & L4 & L5 & L6). rewrite L5. split; [apply like_va; repeat split; auto|]. auto.
  - pose proof L0 as L1. destruct L1 as (L1 & L2 & L3 & L4 & L5 & L6). rewrite L6. destruct (x_va x) as [|z l]; [discriminate|]. injection E as <- <-.
    do 2 eexists. split; [reflexivity|]. split; [apply like_set, like_va, L0|]. auto.
  - injection E as <- <-. do 2 eexists. split; [reflexivity|]. auto.
  - pose proof L0 as L1. destruct L1 as (L1 & L2 & _). rewrite L2. destruct incoming as [v|]; [|discriminate]. rewrite (xoperand_ok x) by auto. apply D, E.
Qed.
Definition agrees_cfg (r : eres) (c : cfg) : Prop :=
  match r, c with
  | ERet z e s, IRSem.Done z' m o => z' = z /\ same e m /\ same_os s o
  | EExit z s, Gone z' o => z' = z /\ same_os s o
  | _, _ => False
  end.
Lemma skipn_cons {A} (l : list A) : forall k i is, skipn k l = i :: is -> nth_error l k = Some i /\ skipn (S k) l = is.
Proof.
  induction l as [|a l IH]; intros [|k] i is E; try discriminate; cbn in *.
  - injection E as <- <-. auto.
  - apply IH in E. exact E.
Qed.
Lemma skipn_nil {A} (l : list A) : forall k, skipn k l = [] -> (k <= List.length l)%nat -> k = List.length l.
Proof. intros k E L0. pose proof (skipn_length k l) as Q. rewrite E in Q. cbn in Q. lia. Qed.
Lemma plain_step_eq n F i is t x e s : (forall r v nf va args, i <> ICall r v nf va args) ->
  erun (S n) F (i :: is) t x e s = match xplain i x e with Some (x', e') => erun n F is t x' e' s | None => None end.
Proof. intros N. destruct i; try reflexivity. exfalso. eapply N. reflexivity. Qed.

Theorem exec_sound : forall n,
  (forall F is t x e s r, erun n F is t x e s = Some r -> forall f m o B, like x f -> same e m -> same_os s o ->
     nth_error F (fr_blk f) = Some B -> skipn (fr_idx f) (b_insts B) = is -> (fr_idx f <= List.length (b_insts B))%nat -> b_term B = t ->
     exists c, steps I M F (Run f m o) c /\ agrees_cfg r c) /\
  (forall g args e s r, ecall n g args e s = Some r -> forall m o, same e m -> same_os s o ->
     exists y, icall I M g args m o y /\ agrees r y).
Proof.
  induction n as [|n [IHr IHc]]; [split; intros; discriminate|]. split.
  - intros F is t x e s r E f m o B L0 SM SO NB SK LE TB.
    assert (GO : forall b, (match nth_error F b with Some B => erun n F (b_insts B) (b_term B) (xgoto b x) e s | None => None end) = Some r ->
      exists c, steps I M F (Run (goto_blk b f) m o) c /\ agrees_cfg r c).
    { intros b E2. destruct (nth_error F b) as [B2|] eqn:NB2; [|discriminate].
      eapply IHr; [exact E2|apply like_goto, L0|exact SM|exact SO|exact NB2|reflexivity|cbn; lia|reflexivity]. }
    destruct is as [|i is].
    + assert (END : at_end F f = t).
      { unfold at_end. rewrite NB. apply skipn_nil in SK; [|exact LE]. rewrite SK, Nat.eqb_refl. exact TB. }
      cbn [erun] in E. destruct t as [[v|b|v bt bf|v d l]|]; try discriminate.
      * destruct (xoperand x v) as [z|] eqn:V; [|discriminate]. injection E as <-. exists (IRSem.Done z m o). split; [|cbn; auto].
        apply steps_one. eapply st_ret; [exact END|]. rewrite (xoperand_ok x) by auto; exact V.
      * destruct (GO b E) as (c & C1 & C2). exists c. split; auto. eapply steps_step; [|exact C1]. eapply st_br. exact END.
      * destruct (xoperand x v) as [z|] eqn:V; [|discriminate]. destruct (GO _ E) as (c & C1 & C2). exists c. split; auto.
        eapply steps_step; [|exact C1]. eapply st_condbr; [exact END|]. rewrite (xoperand_ok x) by auto; exact V.
      * destruct (xoperand x v) as [z|] eqn:V; [|discriminate]. destruct (GO _ E) as (c & C1 & C2). exists c. split; auto.
        eapply steps_step; [|exact C1]. eapply st_switch; [exact END|]. rewrite (xoperand_ok x) by auto; exact V.
    + apply skipn_cons in SK. destruct SK as [NI SK].
      assert (LE2 : (S (fr_idx f) <= List.length (b_insts B))%nat) by (apply nth_error_Some; congruence).
      assert (FE : fetch F f = Some i) by (unfold fetch; rewrite NB; exact NI).
      assert (DEC : (exists q v nf va args, i = ICall q v nf va args) \/ (forall q v nf va args, i <> ICall q v nf va args)).
      { destruct i; try (right; discriminate). left. eauto 10. }
      destruct DEC as [(q & v & nf & va & args & ->)|NC].
      * cbn [erun] in E. destruct (xcallee x v) as [g|] eqn:CE; [|discriminate]. destruct (xoperands x args) as [zs|] eqn:OE; [|discriminate].
        destruct (ecall n g zs e s) as [[z e2 s2|z s2]|] eqn:CA; try discriminate.
        -- destruct (IHc _ _ _ _ _ CA m o SM SO) as (y & Y1 & Y2). destruct y as [z' m2 o2|]; [|contradiction]. destruct Y2 as (-> & SM2 & SO2).
           destruct (IHr _ _ _ _ _ _ _ E (next (set_reg q z f)) m2 o2 B) as (c & C1 & C2); auto.
           { apply like_next, like_set, L0. }
           exists c. split; auto. eapply steps_step; [|exact C1]. eapply st_call; [exact FE|rewrite (xcallee_ok x) by auto; exact CE|rewrite (xoperands_ok x) by auto; exact OE|exact Y1].
        -- injection E as <-. destruct (IHc _ _ _ _ _ CA m o SM SO) as (y & Y1 & Y2). destruct y as [|z' o2]; [contradiction|]. destruct Y2 as (-> & SO2).
           exists (Gone z o2). split; [|cbn; auto]. apply steps_one.
           eapply st_exit; [exact FE|rewrite (xcallee_ok x) by auto; exact CE|rewrite (xoperands_ok x) by auto; exact OE|exact Y1].
      * rewrite plain_step_eq in E by exact NC. destruct (xplain i x e) as [[x2 e2]|] eqn:PE; [|discriminate].
        destruct (xplain_ok _ _ _ _ _ f m L0 SM PE) as (f2 & m2 & P & L2 & S2 & I2 & B2).
        destruct (IHr _ _ _ _ _ _ _ E (next f2) m2 o B) as (c & C1 & C2); cbn [next fr_blk fr_idx]; rewrite ?I2, ?B2; auto.
        exists c. split; auto. eapply steps_step; [|exact C1]. eapply st_plain; eauto.
  - intros g args e s r E m o SM SO. cbn [ecall] in E. destruct (definition_of g (m_funcs M)) as [fn|] eqn:DE.
    + destruct (xenter fn args) as [x|] eqn:XE; [|discriminate]. destruct (nth_error (f_blocks fn) 0) as [B|] eqn:NB; [|discriminate].
      assert (EN : exists f, enter fn args = Some f /\ like x f /\ fr_blk f = 0%nat /\ fr_idx f = 0%nat).
      { unfold xenter in XE. unfold enter. destruct (f_params fn); [|destruct args as [|z zs]; [discriminate|]]; injection XE as <-; (eexists; split; [reflexivity|]);
          (split; [|auto]); repeat split; cbn; auto; intros q; rewrite PositiveMap.gempty; reflexivity. }
      destruct EN as (f & EN & LF & BF & IF). destruct (erun n (f_blocks fn) (b_insts B) (b_term B) x e s) as [r2|] eqn:RE; [|discriminate].
      destruct (IHr _ _ _ _ _ _ _ RE f m o B) as (c & C1 & C2); rewrite ?BF, ?IF; auto; try lia.
      destruct r2 as [z e2 s2|z s2], c as [|z' m2 o2|z' o2]; try contradiction; injection E as <-.
      * destruct C2 as (-> & S2 & O2). eexists. split; [eapply ic_return; eauto|]. cbn [agrees]. split; auto. split; auto.
        destruct S2 as (S2 & S3 & S4). destruct SM as (SM1 & SM2 & SM3). split; [|split]; cbn; auto.
      * destruct C2 as (-> & O2). eexists. split; [eapply ic_exit; eauto|]. cbn [agrees]. auto.
    + destruct (elib_ok K fout g args e m s o r SM SO E) as (y & Y1 & Y2). exists y. split; auto. apply ic_outside; auto. rewrite I_ext. exact Y1.
Qed.
Theorem ecall_sound n g args e s r : ecall n g args e s = Some r -> forall m o, same e m -> same_os s o ->
  exists y, icall I M g args m o y /\ agrees r y.
Proof. apply exec_sound. Qed.
End Interpreter.
