(** * DriverSummary: one statement about Compile for the four modes *)
From Coq Require Import List Ascii String ZArith NArith Lia Bool.
From Verif Require Import Base IR Decl PropsTotal Driver SpecDriver DriverFacts DriverModes.
Import ListNotations.
Open Scope Z_scope.

Definition is_exe (m : OutputType) : bool := match m with OutputExecutable => true | _ => false end.
Definition is_ir (m : OutputType) : bool := match m with OutputIR => true | _ => false end.

Section Summary.
Variable E : env.
Variable a : CompileOptions.
Variable m : OutputType.

(** Output, temporary and command line of an input, in terms of the model. *)
Definition O_ (f : path) : path := on_of a (suffix m) (if is_exe m then hd [] (InputFiles a) else f).
Definition T_ (i : nat) (f : path) : path :=
  if is_exe m then temp_name (with_output a) i f (txt ".b") else O_ f ++ txt ".tmp.ll".
Definition cmd_ (i : nat) (f : path) : list path :=
  match m with
  | OutputExecutable => linkArgs E (with_output a) (new_ins (with_output a) 0 (InputFiles a))
  | OutputAssembly => asmArgs a (if isb f then T_ i f else f) (O_ f)
  | _ => objArgs a (if isb f then T_ i f else f) (O_ f)
  end.
Definition compiles (s : dstate) (f : path) (ir : list ascii) : Prop :=
  exists c, d_fs s f = Some c /\ ir_of E c ir.
Definition distinct : Prop := m = OutputExecutable \/ NoDup (map O_ (InputFiles a)).

Definition summary (s : dstate) (r : dres unit) : Prop :=
  let s' := final r in
  exists evs, after s s' evs
  /\ (forall p, (forall f, In f (InputFiles a) -> p <> O_ f) -> ~ In (EvCreate p) evs -> d_fs s' p = d_fs s p)
  /\ (forall p, In (EvCreate p) evs ->
        (m = OutputIR /\ exists f ir, In f (InputFiles a) /\ p = O_ f /\ compiles s f ir)
        \/ (m <> OutputIR /\ exists i f, nth_error (InputFiles a) i = Some f /\ isb f = true /\ p = T_ i f
            /\ (SaveTemps a = false -> no_write_fault E -> no_remove_fault E -> d_fs s' p = None)))
  /\ (forall p, In (EvRemove p) evs -> SaveTemps a = false /\ m <> OutputIR /\ In (EvCreate p) evs)
  /\ (forall x, In (EvClang x) evs -> m <> OutputIR /\ exists i f, nth_error (InputFiles a) i = Some f /\ x = cmd_ i f
        /\ (forall g, (if is_exe m then In g (InputFiles a) else g = f) -> isb g = true -> exists ir, compiles s g ir))
  /\ (forall o, (m <> OutputIR -> forall i f, nth_error (InputFiles a) i = Some f -> isb f = true -> o <> T_ i f) ->
        (if is_exe m then exists f, In f (InputFiles a) /\ isb f = true /\ forall ir, ~ compiles s f ir
         else forall f, In f (InputFiles a) -> O_ f = o -> isb f = true /\ forall ir, ~ compiles s f ir) ->
        d_fs s' o = d_fs s o /\ ~ In (EvCreate o) evs)
  /\ match r with
     | DOk _ _ => forall i f, nth_error (InputFiles a) i = Some f ->
         (isb f = true -> exists ir, compiles s f ir)
         /\ (m = OutputIR -> d_fs s' (O_ f) <> None /\ In (EvCreate (O_ f)) evs
              /\ (distinct -> exists ir, compiles s f ir /\ d_fs s' (O_ f) = Some ir))
         /\ (m <> OutputIR -> In (EvClang (cmd_ i f)) evs
              /\ ((forall j g, nth_error (InputFiles a) j = Some g -> isb g = true -> O_ f <> T_ j g) -> d_fs s' (O_ f) <> None)
              /\ (distinct -> exists t fx o, clang E t (cmd_ i f) fx = ClangOk o
                  /\ ((forall j g, nth_error (InputFiles a) j = Some g -> isb g = true -> O_ f <> T_ j g) -> d_fs s' (O_ f) = Some o)
                  /\ (isb f = true -> exists ir, compiles s f ir /\ fx (T_ i f) = Some ir
                       /\ (SaveTemps a = true -> T_ i f <> O_ f -> d_fs s' (T_ i f) = Some ir))))
     | DErr _ _ => True
     end.

End Summary.

Section Proofs.
Variable E : env.

(** Without -o an output name never ends in .b. *)
Lemma out_not_b f x : isb (x ++ txt ".ll") = false /\ isb (x ++ txt ".s") = false /\ isb (x ++ txt ".o") = false
  /\ (isb f = true -> f <> x ++ txt ".ll" /\ f <> x ++ txt ".s" /\ f <> x ++ txt ".o").
Proof.
  assert (G : forall suf, rev suf <> [] -> hd "b"%char (rev suf) <> "b"%char -> isb (x ++ suf) = false).
  { intros suf N H. destruct (isb (x ++ suf)) eqn:B; auto. apply HasSuffix_spec in B. destruct B as [q HE].
    apply (f_equal (@rev ascii)) in HE. rewrite !rev_app_distr in HE. destruct (rev suf) as [|c r]; [congruence|].
    cbn in HE, H. injection HE as ->. congruence. }
  splits; try (apply G; discriminate).
  intros B. splits; intros ->; rewrite G in B; discriminate.
Qed.

Lemma ok_order_on a suf : In suf [txt ".ll"; txt ".s"; txt ".o"] -> bad_o a = false ->
  ok_order (on_of a suf) (InputFiles a).
Proof.
  intros HS HB. unfold bad_o in HB. unfold on_of. destruct (path_eqb (OutputFile a) []); cbn [negb andb] in HB.
  - clear HB. induction (InputFiles a) as [|g l IH]; cbn [ok_order]; auto. split; auto.
    intros f _ Hb. unfold out_name. cbn zeta.
    destruct (out_not_b f (TrimSuffix (Base g) (Ext (Base g)))) as (_ & _ & _ & H). specialize (H Hb).
    destruct HS as [<-|[<-|[<-|[]]]]; tauto.
  - destruct (InputFiles a) as [|g [|h l]]; try discriminate. cbn. split; auto.
Qed.

Lemma on_not_tmp a suf : In suf [txt ".s"; txt ".o"] -> bad_o a = false ->
  forall f g, In f (InputFiles a) -> In g (InputFiles a) -> on_of a suf f <> on_of a suf g ++ txt ".tmp.ll".
Proof.
  intros HS HB f g Hf Hg. unfold bad_o in HB. unfold on_of. destruct (path_eqb (OutputFile a) []).
  - unfold out_name. cbn zeta. intros H. apply (f_equal (@rev ascii)) in H. rewrite !rev_app_distr in H.
    destruct HS as [<-|[<-|[]]]; discriminate.
  - apply out_tmp. discriminate.
Qed.

Lemma one_summary a m mk : m <> OutputIR -> m <> OutputExecutable ->
  (forall i f, cmd_ E a m i f = mk a (if isb f then T_ a m i f else f) (O_ a m f)) ->
  In (suffix m) [txt ".s"; txt ".o"] -> bad_o a = false -> forall s,
  summary E a m s (each (fun f => oneG E mk a f (on_of a (suffix m) f)) (InputFiles a) s).
Proof.
  intros M1 M2 HC HS HB s.
  assert (HX : is_exe m = false) by (destruct m; auto; congruence).
  assert (EO : forall f, O_ a m f = on_of a (suffix m) f) by (intros f; unfold O_; rewrite HX; auto).
  assert (ET : forall i f, T_ a m i f = on_of a (suffix m) f ++ txt ".tmp.ll") by (intros i f; unfold T_; rewrite HX, EO; auto).
  assert (HOrd : ok_order (on_of a (suffix m)) (InputFiles a)).
  { apply ok_order_on; auto. cbn in *; tauto. }
  destruct (many_spec E mk a (on_of a (suffix m)) (InputFiles a) s (on_not_tmp a (suffix m) HS HB) HOrd)
    as (evs & A & F & C & R & K & U & S).
  cbv zeta in *. unfold summary. cbv zeta. rewrite HX.
  set (r := each (fun f => oneG E mk a f (on_of a (suffix m) f)) (InputFiles a) s) in *.
  exists evs. splits; auto.
  - intros p H1 H2. apply F; auto. intros f Hf. rewrite <- EO. auto.
  - intros p H. right. split; auto. destruct (C p H) as (f & Hf & Hb & -> & HN).
    apply In_nth_error in Hf. destruct Hf as [i Hi]. exists i, f. rewrite ET. auto.
  - intros p H. destruct (R p H). auto.
  - intros x H. split; auto. destruct (K x H) as (f & Hf & -> & Hb).
    apply In_nth_error in Hf. destruct Hf as [i Hi]. exists i, f. rewrite HC, ET, EO. splits; auto.
    intros g -> B. destruct (Hb B) as (c & ir & H1 & H2). exists ir, c. auto.
  - intros o H1 H2. specialize (H1 M1). split.
    + destruct (in_dec (list_eq_dec ascii_dec) o (map (on_of a (suffix m)) (InputFiles a))) as [HI|HI].
      * apply in_map_iff in HI. destruct HI as (f0 & <- & Hf0).
        apply U.
        -- intros g Hg. apply on_not_tmp; auto.
        -- intros f Hf HE H. destruct (K _ H) as (g & Hg & HEq & Hbg).
           assert (HOg : on_of a (suffix m) g = on_of a (suffix m) f0).
           { rewrite <- HE in HEq.
             pose proof (HC 0%nat f) as X1. pose proof (HC 0%nat g) as X2. rewrite ET, EO in X1, X2.
             fold (isb f) in *. rewrite <- X1, <- X2 in HEq. unfold cmd_ in HEq.
             destruct m; try congruence; unfold asmArgs, objArgs in HEq; apply app_inv_head in HEq;
               injection HEq as HEq _; rewrite !EO in HEq; congruence. }
           destruct (H2 g) as [B NC]; auto. { rewrite EO; auto. }
           destruct (Hbg B) as (c & ir & Z1 & Z2). apply (NC ir). exists c. auto.
      * apply F.
        -- intros f Hf HE. apply HI. rewrite HE. apply in_map. auto.
        -- intros H. destruct (C o H) as (f & Hf & Hb & HE & _).
           apply In_nth_error in Hf. destruct Hf as [i Hi]. apply (H1 i f Hi Hb). rewrite ET. auto.
    + intros H. destruct (C o H) as (f & Hf & Hb & HE & _).
      apply In_nth_error in Hf. destruct Hf as [i Hi]. apply (H1 i f Hi Hb). rewrite ET. auto.
  - destruct r as [u s'|]; auto. cbn [final] in *. intros i f Hi. pose proof (nth_error_In _ _ Hi) as Hf.
    destruct (S f Hf) as (K1 & B1 & N1 & D1). splits; try congruence.
    + intros B. destruct (B1 B) as (c & ir & H1 & H2). exists ir, c. auto.
    + intros _. rewrite HC, ET, EO. splits; auto.
      intros [D|D]; [congruence|].
      destruct D1 as (t & fx & o & CL & O1 & X1).
      { erewrite map_ext; [exact D|]. intros g. rewrite EO. auto. }
      exists t, fx, o. splits; auto. intros B. destruct (X1 B) as (c & ir & H1 & H2 & H3 & H4).
      exists ir. splits; auto. exists c. auto.
Qed.

Lemma ir_summary a : forallb (accepts OutputIR) (InputFiles a) = true -> bad_o a = false -> forall s,
  summary E a OutputIR s (each (fun f => compileSingleTo E f (on_of a (txt ".ll") f)) (InputFiles a) s).
Proof.
  intros HA HB s.
  assert (Hall : Forall (fun f => isb f = true) (InputFiles a)).
  { apply Forall_forall. intros f Hf. rewrite forallb_forall in HA. rewrite <- accepts_IR. auto. }
  assert (HOrd : ok_order (on_of a (txt ".ll")) (InputFiles a)) by (apply ok_order_on; cbn; auto).
  destruct (irs_spec E (on_of a (txt ".ll")) (InputFiles a) s Hall HOrd) as (evs & A & F & C & R & K & S).
  cbv zeta in *. unfold summary. cbv zeta. cbn [is_exe].
  set (r := each (fun f => compileSingleTo E f (on_of a (txt ".ll") f)) (InputFiles a) s) in *.
  assert (EO : forall f, O_ a OutputIR f = on_of a (txt ".ll") f) by reflexivity.
  exists evs. splits; auto.
  - intros p H. left. split; auto. destruct (C p H) as (f & Hf & -> & c & ir & H1 & H2).
    exists f, ir. splits; auto. exists c. auto.
  - intros p H. exfalso. eapply R; eauto.
  - intros p H. exfalso. eapply K; eauto.
  - intros o _ H2. assert (N : ~ In (EvCreate o) evs).
    { intros H. destruct (C o H) as (f & Hf & -> & c & ir & Z1 & Z2).
      destruct (H2 f Hf (EO f)) as [_ NC]. apply (NC ir). exists c. auto. }
    split; auto.
  - destruct r as [u s'|]; auto. cbn [final] in *. intros i f Hi. pose proof (nth_error_In _ _ Hi) as Hf.
    destruct (S f Hf) as (c & ir & H1 & H2 & H3 & H4 & H5). splits; try congruence.
    + intros _. exists ir, c. auto.
    + intros _. splits; auto. intros [D|D]; [discriminate|]. exists ir. split; [exists c; auto|].
      apply H5. exact D.
Qed.

Lemma linkable_accepts f : accepts OutputExecutable f = true -> linkable f.
Proof.
  unfold accepts, linkable. intros H. apply existsb_exists in H. destruct H as (e & He & H).
  destruct (path_eqb_spec (Ext f) ("."%char :: e)) as [->|]; [|discriminate].
  cbn in He |- *. intuition (subst; auto).
Qed.

Lemma exe_summary a : InputFiles a <> [] -> forallb (accepts OutputExecutable) (InputFiles a) = true -> forall s,
  summary E a OutputExecutable s (compileToExecutable E a s).
Proof.
  intros HN HA s. set (b := with_output a).
  destruct (with_output_fields a) as (EI & ES & _ & _ & _ & _ & EOut). fold b in EI, ES, EOut.
  assert (HL : Forall linkable (InputFiles b)).
  { rewrite EI. apply Forall_forall. intros f Hf. apply linkable_accepts. rewrite forallb_forall in HA. auto. }
  assert (ND : NoDup (new_temps b 0 (InputFiles b))) by (apply new_temps_nodup; lia).
  destruct (exe_spec E b s HL ND) as (evs & A & C & K & R & F & U & S). cbv zeta in *.
  unfold summary. cbv zeta. cbn [is_exe].
  assert (EO : forall f, O_ a OutputExecutable f = OutputFile b) by (intros f; rewrite EOut; reflexivity).
  assert (ET : forall i f, T_ a OutputExecutable i f = temp_name b i f (txt ".b")) by reflexivity.
  assert (EC : forall i f, cmd_ E a OutputExecutable i f = linkArgs E b (new_ins b 0 (InputFiles b)))
    by (intros i f; rewrite EI; reflexivity).
  change (compileToExecutable E a s) with
    ((p <- exe_inputs E b 0 (InputFiles b) [] [] ;;
            let '(temps, ins) := p in
            on_error (run_clang E (linkArgs E b ins) (OutputFile b)) (drop_temps E b temps) ;;
            drop_temps E b temps)%d s).
  match type of A with after _ (final ?x) _ => set (r := x) in * end.
  assert (HF : exists f, nth_error (InputFiles a) 0 = Some f).
  { destruct (InputFiles a) as [|f l]; [congruence|exists f; reflexivity]. }
  destruct HF as [f0 Hf0].
  assert (HT : forall p, In p (new_temps b 0 (InputFiles b)) <->
            exists i f, nth_error (InputFiles a) i = Some f /\ isb f = true /\ p = T_ a OutputExecutable i f).
  { intros p. rewrite new_temps_spec. rewrite EI. cbn [Nat.add]. reflexivity. }
  exists evs. splits; auto.
  - intros p H1 H2. apply F; auto. rewrite <- (EO f0). apply H1. eapply nth_error_In; eauto.
  - intros p H. right. split; [discriminate|]. destruct (C p H) as [HI HNone]. apply HT in HI.
    destruct HI as (i & f & H1 & H2 & H3). exists i, f. rewrite ES in HNone. auto.
  - intros p H. destruct (R p H). rewrite ES in *. splits; auto. discriminate.
  - intros x H. split; [discriminate|]. destruct (K x H) as [-> HB]. exists 0%nat, f0. rewrite EC. splits; auto.
    intros g Hg B. rewrite <- EI in Hg. destruct (HB g Hg B) as (c & ir & H1 & H2). exists ir, c. auto.
  - intros o H1 (f & Hf & B & NC). specialize (H1 ltac:(discriminate)).
    assert (NCr : ~ In (EvCreate o) evs).
    { intros H. destruct (C o H) as [HI _]. apply HT in HI. destruct HI as (i & g & Z1 & Z2 & Z3). eapply H1; eauto. }
    split; auto. apply U; auto. intros x Hx. destruct (K x Hx) as [_ HB]. rewrite <- EI in Hf.
    destruct (HB f Hf B) as (c & ir & Z1 & Z2). apply (NC ir). exists c. auto.
  - destruct r as [u s'|]; auto. cbn [final] in *. destruct S as (K1 & t & fx & o & CL & O1 & X1 & X2).
    intros i f Hi. splits; try discriminate.
    + intros B. destruct (X2 i f) as (c & ir & H1 & H2 & _); auto; [rewrite EI; auto|]. exists ir, c. auto.
    + intros _. rewrite EC, EO. splits; auto.
      * intros HO. rewrite O1; [discriminate|]. intros H. apply HT in H.
        destruct H as (j & g & Z1 & Z2 & Z3). eapply HO; eauto.
      * intros _. exists t, fx, o. splits; auto.
        -- intros HO. apply O1. intros H. apply HT in H. destruct H as (j & g & Z1 & Z2 & Z3). eapply HO; eauto.
        -- intros B. destruct (X2 i f) as (c & ir & H1 & H2 & H3 & H4); auto; [rewrite EI; auto|].
           rewrite ES in H4. rewrite ET. exists ir. splits; auto. exists c. auto.
Qed.

Lemma Compile_summary a s : InputFiles a <> [] -> forallb (accepts (OutType a)) (InputFiles a) = true ->
  (OutType a = OutputExecutable \/ bad_o a = false) ->
  summary E a (OutType a) s (Compile E a s).
Proof.
  intros HN HA HO. unfold Compile. destruct (OutType a) eqn:M.
  - apply exe_summary; auto.
  - destruct HO as [?|HO]; [discriminate|]. rewrite obj_mode, HA, HO.
    apply (one_summary a OutputObject objArgs); cbn; auto; discriminate.
  - destruct HO as [?|HO]; [discriminate|]. rewrite asm_mode, HA, HO.
    apply (one_summary a OutputAssembly asmArgs); cbn; auto; discriminate.
  - destruct HO as [?|HO]; [discriminate|]. rewrite IR_mode, HA, HO. apply ir_summary; auto.
Qed.

Lemma Compile_rejects a s : OutType a <> OutputExecutable ->
  forallb (accepts (OutType a)) (InputFiles a) = false \/ bad_o a = true ->
  exists e, Compile E a s = DErr e s.
Proof.
  intros HX H. unfold Compile. destruct (OutType a); [congruence| | |];
    [rewrite obj_mode|rewrite asm_mode|rewrite IR_mode];
    (destruct (forallb _ (InputFiles a)); [destruct H as [?|H]; [discriminate|]; rewrite H|]; eauto).
Qed.

(** ** main *)
Lemma main_cases fl s : f_help fl = false -> f_version fl = false ->
  (main E fl s = (1, s))
  \/ (exists s1, d_fs s1 = d_fs s /\ d_log s1 = d_log s /\ main E fl s = (1, s1))
  \/ (exists s1 level, d_fs s1 = d_fs s /\ d_log s1 = d_log s
      /\ opt_level (f_optimize fl) = Some level /\ f_files fl <> [] /\ f_no_args fl = false
      /\ forallb (accepts OutputExecutable) (f_files fl) = true
      /\ (forall f, In f (f_files fl) -> d_fs s f <> None)
      /\ main E fl s = status (Compile E (options_of E fl level) s1)).
Proof.
  intros H1 H2. unfold main. rewrite H1, H2. destruct (f_no_args fl); auto.
  destruct (f_files fl) as [|f l] eqn:FF; auto.
  destruct (opt_level (f_optimize fl)) as [level|]; auto. right.
  unfold dbind. pose proof (checks_spec E (f :: l) s) as C. destruct (each (check_input E) (f :: l) s) as [u s1|e s1].
  - right. destruct C as (F & L & H). exists s1, level. splits; auto; try discriminate.
    + apply forallb_forall. intros g Hg. apply H. auto.
    + intros g Hg. apply H. auto.
  - left. destruct C. exists s1. auto.
Qed.

End Proofs.
