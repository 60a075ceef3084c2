(** * PropsOrder: the order of the definitions (C92) *)
From Coq Require Import List Ascii String ZArith NArith Lia Bool Permutation.
From Verif Require Import Base Lexer SpecLex IR Builder Expr Stmt Decl Syntax SpecTree SpecStatic Static Pure Pwp Built InvSym InvDecl SpecText TextTac RenderWf ParseGen Names LdFacts RenderDecl SpecSem IRSem SpecLink SimFun
  SemShift SemEx PropsExpr PropsEnd PropsSym PropsAccept PropsStages LdSrc SimFiles SpecOrder OrderFacts.
From Verif Require Import SemMono.
From Verif Require DriverModes.
Import ListNotations.
Open Scope string_scope.
Open Scope list_scope.
Open Scope Z_scope.

Local Notation "$ s" := (list_ascii_of_string s%string) (at level 1, format "$ s").

Lemma vectors_once ds : NoDup (map dname ds) -> NoDup (vector_names ds).
Proof.
  induction ds as [|d ds IH]; cbn [map]; intros N; [constructor|]. inversion N as [|? ? N1 N2]. subst. unfold vector_names in *. cbn [flat_map].
  destruct d as [x l|x z l|x ps b]; [exact (IH N2)| |exact (IH N2)]. cbn [app]. constructor; [|exact (IH N2)].
  intros K. apply N1. apply in_flat_map in K. destruct K as (d & Hd & K). destruct d; cbn in K; try contradiction. destruct K as [->|[]]. cbn [dname]. apply (in_map dname) in Hd. exact Hd.
Qed.
Lemma tree_compiles inp ds : tree_of inp ds -> wfP ds /\ Forall shD ds /\ forall M, generate true ds = Ok M tt <-> compile inp false = Ok M tt.
Proof.
  intros T. pose proof T as (w & s & -> & L & X). destruct (xP_wf _ _ X) as [W1 W2]. split; [exact W1|]. split; [exact W2|]. intros M. split.
  - intros G. pose proof (text_compiles ds s w X L) as Y. rewrite G in Y. exact Y.
  - intros C. apply (module_of_generate ds M (tree_module _ _ _ T C)).
Qed.
(** The names of the rules are those of the module. *)
Lemma env_of inp ds M : tree_of inp ds -> compile inp false = Ok M tt -> exists v, chkP ds empty_env = Some v /\
  (forall x, In x (s_funs v) <-> In (globalName x) (map f_name (m_funcs M))) /\
  (forall x, nodot x -> (In x (s_globs v) <-> In (globalName x) (map g_name (m_globals M)))).
Proof.
  intros T C. destruct (tree_compiles _ _ T) as (W1 & W2 & K). apply K in C. pose proof (generate_iff ds W1 W2) as G. destruct (chkP ds empty_env) as [v|].
  - destruct G as (m & E & G1 & G2). rewrite C in E. injection E as <-. eauto.
  - destruct G as [e E]. congruence.
Qed.
Lemma separate_env inp ds M v : tree_of inp ds -> compile inp false = Ok M tt -> NoDup (map dname ds) -> chkP ds empty_env = Some v -> separate M ->
  forall x, In x (s_funs v) -> ~ In x (s_globs v).
Proof.
  intros T C N CK SEP x HF HG. destruct (env_of _ _ _ T C) as (v' & CK' & K1 & K2). rewrite CK in CK'. injection CK' as <-.
  destruct (tree_compiles _ _ T) as (W1 & W2 & K). apply K in C. apply generate_yields in C. destruct C as (c & Y & E). subst M. cbn [m_globals m_funcs Decl.module_of] in *.
  apply K1 in HF. pose proof (SK_vectors true ds W1 [] _ (vectors_once _ N) (fun _ _ K => K) (Forall_nil _) SI_new _ _ Y) as [_ _ _ SF]. rewrite Forall_forall in SF.
  destruct (SF _ HF) as [(y & Ny & E)|B].
  - apply globalName_inj in E. subst y. exact (SEP _ (proj1 (K2 x Ny) HG) HF).
  - destruct B as [B|B]; [exact (globalName_llvm x "va_start" B)|exact (globalName_llvm x "va_end" B)].
Qed.

(** ** C92 *)
(** If no name is a variable and a function of the file, the definitions can be
    written in any order. *)
Theorem C92_accepted : forall inp inp' ds ds' M, tree_of inp ds -> tree_of inp' ds' -> Permutation ds ds' -> NoDup (map dname ds) ->
  compile inp false = Ok M tt -> separate M -> exists M', compile inp' false = Ok M' tt /\ separate M'.
Proof.
  intros inp inp' ds ds' M T T' P N C SEP. destruct (env_of _ _ _ T C) as (v & CK & _ & _). pose proof (separate_env _ _ _ _ T C N CK SEP) as DJ.
  destruct (chkP_order ds ds' v CK DJ) as (v' & CK' & I1 & I2); [intros d Hd; eapply Permutation_in; [apply Permutation_sym; exact P|exact Hd]|].
  pose proof T' as (w & s & -> & L & X). destruct (C21_all_symbols_unique_partial ds' s w v' X L CK') as (M' & C' & ND).
  - apply vectors_once. eapply Permutation_NoDup; [apply Permutation_map; exact P|exact N].
  - intros x A B. exact (DJ x (I1 x A) (I2 x B)).
  - exists M'. split; [exact C'|]. intros y A B. apply NoDup_app_iff in ND. apply (proj2 (proj2 ND) y A B).
Qed.
Print Assumptions C92_accepted.
(** What the functions do does not depend on the order: they give the same
    results with the same effects and run for ever in the same cases, wherever
    the text does nothing undefined. *)
Theorem C92_behaviour_partial : forall inp inp' ds ds' M M', tree_of inp ds -> tree_of inp' ds' -> Permutation ds ds' -> NoDup (map dname ds) ->
  compile inp false = Ok M tt -> compile inp' false = Ok M' tt -> separate M ->
  forall W (H H' : host W) I I' locals, Forall (regularD locals) ds -> linked H I M -> linked H' I' M' -> reordered H H' ds ds' ->
  forall x args m w, (forall n, calls H locals ds n x args m w <> Stuck) ->
  (forall r, icall I M (globalName x) args m w r <-> icall I' M' (globalName x) args m w r) /\
  (runs_forever I M x args m w <-> runs_forever I' M' x args m w).
Proof.
  intros inp inp' ds ds' M M' T T' P N C C' SEP W H H' I I' locals REG LK LK' R x args m w NS.
  destruct (C92_accepted _ _ _ _ _ T T' P N C SEP) as (M1 & C1 & SEP'). rewrite C' in C1. injection C1 as <-.
  assert (REG' : Forall (regularD locals) ds') by (eapply Permutation_Forall; eauto).
  pose proof (fun n => calls_order H H' locals ds ds' R P N n x args m w) as E.
  destruct (C64_exactly_partial W H I M ds locals (tree_module _ _ _ T C) LK SEP REG x args m w NS) as [A1 A2].
  destruct (C64_exactly_partial W H' I' M' ds' locals (tree_module _ _ _ T' C') LK' SEP' REG' x args m w) as [B1 B2]; [intros n; rewrite <- E; apply NS|].
  split.
  - intros r. rewrite A1, B1. split; intros [n K]; exists n; [rewrite <- E|rewrite E]; exact K.
  - rewrite A2, B2. unfold endless. split; intros K n; [rewrite <- E|rewrite E]; apply K.
Qed.
Print Assumptions C92_behaviour_partial.

(** Such a machine exists for each machine: only the symbols of the literals
    have other addresses. *)
Fixpoint ahead (ds : list decl) (x : string) : Z :=
  match ds with [] => 0 | d :: r => if String.eqb (dname d) x then 0 else litsD d + ahead r x end.
Fixpoint number (ds : list decl) (k : Z) (ds' : list decl) : Z :=
  match ds' with [] => k | d :: r => if k <? litsD d then ahead ds (dname d) + k else number ds (k - litsD d) r end.
Definition renamed {W} (I : ihost W) (ds ds' : list decl) : ihost W :=
  mkIHost W (i_place I)
    (fun s => match find (fun k => String.eqb s (".str." ++ dec (Z.of_nat k))%string) (seq 0 (Z.to_nat (literals ds'))) with
              | Some k => i_sym I (".str." ++ dec (number ds (Z.of_nat k) ds'))%string
              | None => i_sym I s
              end)
    (i_fun I) (i_ext I).
Lemma ahead_at ds : NoDup (map dname ds) -> forall bf d af, ds = bf ++ d :: af -> ahead ds (dname d) = literals bf.
Proof.
  intros N bf d af E. subst ds. induction bf as [|b bf IH]; cbn [app ahead map] in *; [rewrite String.eqb_refl; reflexivity|].
  inversion N as [|? ? N1 N2]. destruct (String.eqb_spec (dname b) (dname d)) as [K|_].
  - destruct N1. rewrite K, map_app. apply in_or_app. right. left. reflexivity.
  - rewrite (IH N2). reflexivity.
Qed.
Lemma literals_nonneg ds : 0 <= literals ds.
Proof. induction ds as [|d ds IH]; [cbn; lia|]. cbn [literals fold_right]. fold (literals ds). pose proof (litsD_nonneg d). lia. Qed.
Lemma number_at ds bf d af i : 0 <= i < litsD d -> number ds (literals bf + i) (bf ++ d :: af) = ahead ds (dname d) + i.
Proof.
  intros B. induction bf as [|b bf IH]; cbn [app number literals fold_right].
  - destruct (Z.ltb_spec (0 + i) (litsD d)); [f_equal; lia|lia].
  - fold (literals bf). pose proof (literals_nonneg bf). destruct (Z.ltb_spec (litsD b + literals bf + i) (litsD b)); [lia|].
    rewrite <- IH. f_equal. lia.
Qed.
Lemma find_lit n k : (k < n)%nat -> find (fun j => String.eqb (".str." ++ dec (Z.of_nat k))%string (".str." ++ dec (Z.of_nat j))%string) (seq 0 n) = Some k.
Proof.
  intros L. destruct (find _ _) as [j|] eqn:F.
  - apply find_some in F. destruct F as [_ F]. apply String.eqb_eq in F. injection F as F. apply DriverModes.dec_inj in F. f_equal. lia.
  - pose proof (List.find_none _ _ F k (proj2 (in_seq n 0 k) (conj (Nat.le_0_l k) L))) as K. cbv beta in K. rewrite String.eqb_refl in K. discriminate K.
Qed.
Lemma find_other n s : (forall k, s <> (".str." ++ dec k)%string) -> find (fun j => String.eqb s (".str." ++ dec (Z.of_nat j))%string) (seq 0 n) = None.
Proof.
  intros L. destruct (find _ _) as [j|] eqn:F; [|reflexivity]. apply find_some in F. destruct F as [_ F]. apply String.eqb_eq in F. destruct (L _ F).
Qed.
Theorem C92_machines : forall inp inp' ds ds' M M', tree_of inp ds -> tree_of inp' ds' -> Permutation ds ds' -> NoDup (map dname ds) ->
  compile inp false = Ok M tt -> compile inp' false = Ok M' tt -> separate M ->
  forall W (H : host W) I, linked H I M -> exists H' I', linked H' I' M' /\ reordered H H' ds ds' /\
    (forall s, (forall k, s <> (".str." ++ dec k)%string) -> i_sym I' s = i_sym I s) /\
    i_place I' = i_place I /\ i_fun I' = i_fun I /\ i_ext I' = i_ext I.
Proof.
  intros inp inp' ds ds' M M' T T' P N C C' SEP W H I LK. set (I' := renamed I ds ds').
  assert (NS : forall s, (forall k, s <> (".str." ++ dec k)%string) -> i_sym I' s = i_sym I s) by (intros s K; cbn; rewrite find_other by exact K; reflexivity).
  assert (NG : forall x, i_sym I' (globalName x) = i_sym I (globalName x)) by (intros x; apply NS; intros k; apply globalName_str).
  exists (mkHost W (h_place H) (h_addr H) (fun k => i_sym I' (".str." ++ dec k)%string) (h_fun H) (h_ext H)), I'.
  split; [|split; [|split; [exact NS|repeat split; reflexivity]]].
  - constructor; cbn [h_place h_addr h_lit h_fun h_ext].
    + apply LK.
    + intros x. rewrite NG. apply LK.
    + reflexivity.
    + apply LK.
    + intros f x Hf E. change (i_fun I') with (i_fun I). rewrite E, NG.
      destruct (env_of _ _ _ T C) as (v & CK & K1 & _). destruct (env_of _ _ _ T' C') as (v' & CK' & K1' & _).
      pose proof (separate_env _ _ _ _ T C N CK SEP) as DJ.
      destruct (chkP_order ds ds' v CK DJ) as (v1 & CK1 & I1 & _); [intros d Hd; eapply Permutation_in; [apply Permutation_sym; exact P|exact Hd]|].
      rewrite CK' in CK1. injection CK1 as <-. assert (X : In (globalName x) (map f_name (m_funcs M))) by (apply K1, I1, K1'; rewrite <- E; apply in_map; exact Hf).
      apply in_map_iff in X. destruct X as (g & Eg & Hg). rewrite <- Eg. eapply (lk_self _ _ _ LK); eauto.
    + apply LK.
  - constructor; cbn [h_place h_addr h_lit h_fun h_ext]; try reflexivity.
    intros d bf af bf' af' i E E' B. change literals_in with literals. pose proof (literals_nonneg bf'). pose proof (literals_nonneg af').
    replace (literals bf' + i) with (Z.of_nat (Z.to_nat (literals bf' + i))) by lia. subst I'. cbn [i_sym renamed]. rewrite find_lit.
    + rewrite Z2Nat.id by lia. rewrite E' at 1. rewrite number_at by exact B. rewrite (ahead_at ds N bf d af E). symmetry. apply LK.
    + rewrite E', literals_app. cbn [literals fold_right]. fold (literals af'). lia.
Qed.
Print Assumptions C92_machines.

(** A name that is a function and a variable: whether it is refused depends on
    the order. *)
Definition late92 : list ascii := $"g(){extrn f;}f(){}".
Definition early92 : list ascii := $"f(){}g(){extrn f;}".
Definition treeg : decl := DFunction "g" [] (SBlock (SCons (SExtrn ["f"]) SNil)).
Definition treef : decl := DFunction "f" [] (SBlock SNil).
Theorem C92_accepted_refuted : exists inp inp' ds ds', tree_of inp ds /\ tree_of inp' ds' /\ Permutation ds ds' /\ NoDup (map dname ds) /\
  accepted inp /\ ~ accepted inp'.
Proof.
  exists late92, early92, [treeg; treef], [treef; treeg].
  split; [exists [], late92; split; [reflexivity|split; [apply lay_nil|text]]|].
  split; [exists [], early92; split; [reflexivity|split; [apply lay_nil|text]]|].
  split; [apply perm_swap|]. split; [repeat constructor; cbn; intuition discriminate|].
  split; [exists (module_for late92); vm_compute; reflexivity|]. intros [M C]. vm_compute in C. discriminate C.
Qed.
Print Assumptions C92_accepted_refuted.
(** A name defined twice: the last definition counts. *)
Definition one92 : decl := DFunction "f" [] (SBlock (SCons (SReturn (Some (EInt 1))) SNil)).
Definition two92 : decl := DFunction "f" [] (SBlock (SCons (SReturn (Some (EInt 2))) SNil)).
Definition onetwo : list ascii := $"f(){return(1);}f(){return(2);}".
Definition twoone : list ascii := $"f(){return(2);}f(){return(1);}".
Theorem C92_twice_refuted : exists inp inp' ds ds' M M' (I : ihost (list Z)) m m1 m2, tree_of inp ds /\ tree_of inp' ds' /\ Permutation ds ds' /\
  compile inp false = Ok M tt /\ compile inp' false = Ok M' tt /\
  (forall r, icall I M (globalName "f") [] m [] r <-> r = XRet 2 m1 []) /\ (forall r, icall I M' (globalName "f") [] m [] r <-> r = XRet 1 m2 []).
Proof.
  assert (R1 : Forall (regularD true) [one92; two92]) by by_regular.
  assert (R2 : Forall (regularD true) [two92; one92]) by by_regular.
  assert (T1 : tree_of onetwo [one92; two92]) by (exists [], onetwo; split; [reflexivity|split; [apply lay_nil|text]]).
  assert (T2 : tree_of twoone [two92; one92]) by (exists [], twoone; split; [reflexivity|split; [apply lay_nil|text]]).
  assert (C1 : compile onetwo false = Ok (module_for onetwo) tt) by (vm_compute; reflexivity).
  assert (C2 : compile twoone false = Ok (module_for twoone) tt) by (vm_compute; reflexivity).
  exists onetwo, twoone, [one92; two92], [two92; one92], (module_for onetwo), (module_for twoone), (machine ["b.f"]), empty_mem.
  eexists. eexists. split; [exact T1|]. split; [exact T2|]. split; [apply perm_swap|]. split; [exact C1|]. split; [exact C2|]. split.
  - pose proof (tree_module _ _ _ T1 C1) as MO.
    assert (LK : linked (host_of (machine ["b.f"])) (machine ["b.f"]) (module_for onetwo)) by by_machine.
    assert (SE : separate (module_for onetwo)) by by_names.
    pose proof (PropsExpr.C36_programs_partial _ _ _ _ _ true MO LK SE R1 5 "f" [] empty_mem []) as F. exact F.
  - pose proof (tree_module _ _ _ T2 C2) as MO.
    assert (LK : linked (host_of (machine ["b.f"])) (machine ["b.f"]) (module_for twoone)) by by_machine.
    assert (SE : separate (module_for twoone)) by by_names.
    pose proof (PropsExpr.C36_programs_partial _ _ _ _ _ true MO LK SE R2 5 "f" [] empty_mem []) as F. exact F.
Qed.
Print Assumptions C92_twice_refuted.

(** A program whose result is the distance of two string literals. *)
Definition src92 : list ascii := $"main(){extrn k;return((f()-""ab"")*k);}f(){return(""xy"");}k 3;".
Definition src92' : list ascii := $"k 3;f(){return(""xy"");}main(){extrn k;return((f()-""ab"")*k);}".
Definition main92 : decl := DFunction "main" [] (SBlock (SCons (SExtrn ["k"]) (SCons (SReturn (Some
  (EBin (CBin OMul) (EParen (EBin (CBin OSub) (ECall (ECallee "f") ENil) (EStr "ab"))) (EVar "k")))) SNil))).
Definition f92 : decl := DFunction "f" [] (SBlock (SCons (SReturn (Some (EStr "xy"))) SNil)).
Definition k92 : decl := DGlobal "k" [IvInt 3].
Definition I92 := machine ["main"; ".str.0"; "b.f"; ".str.1"; "b.k"].
Definition H92 := host_of I92.
Definition mem92 := word_at (i_sym I92 "b.k") 3 empty_mem.
Example C92_ex : tree_of src92 [main92; f92; k92] /\ tree_of src92' [k92; f92; main92] /\ Permutation [main92; f92; k92] [k92; f92; main92] /\
  NoDup (map dname [main92; f92; k92]) /\ compile src92 false = Ok (module_for src92) tt /\ compile src92' false = Ok (module_for src92') tt /\
  separate (module_for src92) /\ linked H92 I92 (module_for src92) /\ Forall (regularD true) [main92; f92; k92] /\
  (forall n, calls H92 true [main92; f92; k92] n "main" [] mem92 [] <> Stuck) /\
  match calls H92 true [main92; f92; k92] 9 "main" [] mem92 [] with Val z _ _ => z = 6144 | _ => False end.
Proof.
  split; [exists [], src92; split; [reflexivity|split; [apply lay_nil|text]]|].
  split; [exists [], src92'; split; [reflexivity|split; [apply lay_nil|text]]|].
  split; [change [k92; f92; main92] with (rev [main92; f92; k92]); apply Permutation_rev|]. split; [repeat constructor; cbn; intuition discriminate|].
  split; [vm_compute; reflexivity|]. split; [vm_compute; reflexivity|]. split; [by_names|]. split; [by_machine|]. split; [by_regular|].
  split; [|vm_compute; reflexivity]. intros n.
  assert (K : match calls H92 true [main92; f92; k92] 9 "main" [] mem92 [] with Val z _ _ => True | _ => False end) by (vm_compute; exact Logic.I).
  destruct (Nat.le_ge_cases n 9) as [L|L].
  - destruct (mono_calls H92 true [main92; f92; k92] n 9 L "main" [] mem92 []) as [E|E]; intros F; rewrite F in E; [discriminate|]. rewrite E in K. exact K.
  - destruct (mono_calls H92 true [main92; f92; k92] 9 n L "main" [] mem92 []) as [E|E]; [rewrite E in K; contradiction|]. rewrite E. intros F. rewrite F in K. exact K.
Qed.
