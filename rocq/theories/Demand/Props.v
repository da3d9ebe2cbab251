(** C80: the demand analysis. *)
From Coq Require Import String List Bool Arith NArith Lia Relations.
From Verif.Basics Require Model.
From Verif.Bytecode Require Import Model Spec.
From Verif.Machine Require Import Model Spec Name Sim Check.
From Verif.Machine Require Props.
From Verif.Optimise Require Props.
From Verif.Optimise Require Import Spec.
From Verif.Scope Require Import Model.
From Verif.Compile Require Import Model Spec Relate Reads Means Sound Props.
From Verif.Basics Require Import Model.
From Verif.Demand Require Import Model Spec Facts Exact Main Many.
Import ListNotations.
Open Scope nat_scope.

Section Analysis.
Variable intrinsics : table.
(** Signatures of intrinsics say strict or lazy and at most once or any number of times
    ([build_intrinsic_signatures], src/core/analyse_demand.rs 67-131). *)
Hypothesis proper : Forall (fun e => Forall proper_entry (snd e)) intrinsics.

(** The analysis ends: its loops settle and its searches come to an end. *)
Theorem C80_terminates e : exists e' sigs, analyse_demands intrinsics e = Some (e', sigs).
Proof.
  destruct (analyse_right intrinsics proper e) as (r & sig & E & _). exists (a_expr r), (a_table r). unfold analyse_demands. rewrite E. reflexivity.
Qed.
Lemma analysed e e' sigs : analyse_demands intrinsics e = Some (e', sigs) -> exists r sig, right e r sig /\ a_expr r = e' /\ a_table r = sigs.
Proof.
  destruct (analyse_right intrinsics proper e) as (r & sig & E & H). unfold analyse_demands. rewrite E. cbn. intros [= <- <-]. eauto.
Qed.
(** It changes nothing but annotations. *)
Theorem C80_annotates_only e e' sigs : analyse_demands intrinsics e = Some (e', sigs) -> erase e' = erase e.
Proof. intros H. apply analysed in H. destruct H as (r & sig & H & <- & _). apply (r_erase _ _ _ H). Qed.
(** In every let of the result each definition is annotated; as absent exactly if the body needs it in
    no way; as recursive exactly if it depends on itself; as used at most once only if it is in no
    cycle and no cycle depends on it, and the body is not a block. *)
Theorem C80_flags_exact e e' sigs bs body t i b : analyse_demands intrinsics e = Some (e', sigs) ->
  part (ELet bs body t) e' -> nth_error bs i = Some b ->
  d_card (b_demand b) <> CUnknown /\
  (d_card (b_demand b) <> CAbsent <-> needed bs body i) /\
  (d_rec (b_demand b) = true <-> cyclic bs i) /\
  (d_card (b_demand b) = CAtMostOnce ->
    (forall keys xs, body <> ENode (KBlock keys) xs) /\ forall j, cyclic bs j -> i <> j /\ ~ clos_trans nat (refers bs) j i).
Proof. intros H Hp Hi. apply analysed in H. destruct H as (r & sig & H & <- & _). exact (r_lets _ _ _ H _ _ _ Hp i b Hi). Qed.
(** A definition that is asked for in several places, or in an argument of a function not known here,
    or by a definition of which that is true, is marked as used any number of times. *)
Theorem C80_overused e e' sigs bs body t i b : analyse_demands intrinsics e = Some (e', sigs) ->
  part (ELet bs body t) e' -> nth_error bs i = Some b -> overused bs body i -> d_card (b_demand b) = CMulti.
Proof.
  destruct (analyse_plural intrinsics proper e) as (r & sig & E & H). unfold analyse_demands. rewrite E. cbn. intros [= <- <-] Hp Hi Ho.
  exact (p_lets _ _ _ H _ _ _ i b Hp Hi Ho).
Qed.
(** A signature recorded under a name is that of a definition of that name, which is a function of as
    many parameters; a parameter is absent exactly if its body does not use it. *)
Theorem C80_signatures_exact e e' sigs n ds : analyse_demands intrinsics e = Some (e', sigs) -> In (n, ds) sigs ->
  exists bs body t b ps fbody, part (ELet bs body t) e' /\ In b bs /\ b_name b = n /\ function (b_expr b) ps fbody /\
    List.length ds = List.length ps /\ forall k d, nth_error ds k = Some d -> (d_card d <> CAbsent <-> uses fbody 0 k).
Proof. intros H Hi. apply analysed in H. destruct H as (r & sig & H & <- & <-). exact (r_table _ _ _ H n ds Hi). Qed.
(** Every definition that is a function has its signature recorded; parameters its body asks for in
    several places, or passes to a function not known there, are used any number of times. *)
Theorem C80_signatures_recorded e e' sigs bs body t b ps fbody : analyse_demands intrinsics e = Some (e', sigs) ->
  part (ELet bs body t) e' -> In b bs -> function (b_expr b) ps fbody ->
  exists ds, In (b_name b, ds) sigs /\ List.length ds = List.length ps /\
    forall k d, nth_error ds k = Some d -> (d_card d <> CAbsent <-> uses fbody 0 k) /\ (many fbody 0 k -> d_card d = CMulti).
Proof.
  destruct (analyse_plural intrinsics proper e) as (r & sig & E & H). unfold analyse_demands. rewrite E. cbn. intros [= <- <-] Hp Hb Hf.
  destruct (p_table _ _ _ H _ _ _ b ps fbody Hp Hb Hf) as (ds & H1 & (H2 & H3) & H4). exists ds. split; [exact H1 |]. split; [exact H2 |].
  intros k d Hk. split; [exact (H3 k d Hk) | exact (H4 k d Hk)].
Qed.
End Analysis.

(** * With the compiler *)
Section Compiled.
Context {native : Type}.
Notation settings := (settings (native := native)).
(** The compiler's settings with the signatures the analysis found (src/driver/eval.rs 489-496). *)
Definition with_sigs (St : settings) (sigs : list (string * list Basics.Model.demand)) : settings :=
  mkSettings (s_annotations St) (s_render St) (s_suppress_updates St) (s_suppress_inlining St) (s_catalogue St) (s_intrinsics St)
    (s_intrinsic_sigs St) (s_prelude_globals St) sigs (s_prelude_sigs St) (s_position St) (s_string St) (s_symbol St) (s_number St).
Lemma with_sigs_fits St sigs globals : fits St globals -> fits (with_sigs St sigs) globals.
Proof. intros [H1 H2 H3 H4 H5 H6 H7]. constructor; assumption. Qed.
Notation direct St := (direct (intrinsic_slot St) (prelude_slot St) (s_string St) (s_symbol St) (s_number St) ix_empty_list).
Lemma direct_erase (St : settings) e : forall sizes, direct St sizes (erase e) = direct St sizes e.
Proof.
  induction e as [v|bs body t Hbs Hb|i ps body Hb|k xs Hxs] using expr_nested; intros sizes.
  - reflexivity.
  - cbn. rewrite map_length, map_map, Hb. f_equal. apply map_ext_in. intros b Hin. cbn. rewrite Forall_forall in Hbs. rewrite (Hbs b Hin). reflexivity.
  - cbn. rewrite Hb. reflexivity.
  - cbn [erase Compile.Spec.direct]. rewrite map_map. replace (map (fun x => direct St sizes (erase x)) xs) with (map (direct St sizes) xs); [reflexivity |].
    apply map_ext_in. intros x Hin. rewrite Forall_forall in Hxs. symmetry. apply (Hxs x Hin).
Qed.
Lemma supported_erase e : supported e <-> supported (erase e).
Proof.
  induction e as [v|bs body t Hbs Hb|i ps body Hb|k xs Hxs] using expr_nested; cbn; try tauto.
  - rewrite <- Hb. assert (A : All (fun b => supported (b_expr b)) bs <-> All (fun b => supported (b_expr b)) (map (fun b => mkBinding (b_name b) (erase (b_expr b)) default_demand) bs)).
    { clear Hb. induction Hbs as [|b bs H _ IH]; cbn; [tauto |]. rewrite IH, H. tauto. }
    rewrite A. tauto.
  - assert (A : All supported xs <-> All supported (map erase xs)).
    { induction Hxs as [|x xs H _ IH]; cbn; [tauto |]. rewrite IH, H. tauto. }
    rewrite A. destruct k; try tauto. rewrite map_length. tauto.
Qed.
Variable prim : N -> list native -> prim_result (native := native).
Variable merge : N.
Variable globals : list (form native).
Lemma rendering_direct (St : settings) sigs e e' : erase e' = erase e ->
  direct St [] (rendering (with_sigs St sigs) e') = direct St [] (rendering St e).
Proof.
  intros E. assert (D : forall sizes, direct St sizes e' = direct St sizes e) by (intros sizes; rewrite <- (direct_erase St e'), <- (direct_erase St e), E; reflexivity).
  unfold rendering. cbn [with_sigs s_render]. destruct (s_render St); cbn [Compile.Spec.direct map]; rewrite ?D; reflexivity.
Qed.
(** Whatever a program compiled with the annotations and signatures of the analysis shows, the
    expression, which has none, means: the analysis never gives another result. *)
Theorem C80_sound_partial (St : settings) e e' sigs self c w : regular_operators prim -> fits St globals -> supported e ->
  Forall (fun x => Forall proper_entry (snd x)) (s_intrinsic_sigs St) ->
  analyse_demands (s_intrinsic_sigs St) e = Some (e', sigs) -> compile (with_sigs St sigs) e' self = Ok c ->
  shows prim merge globals (VClo c 0 []) w -> shows prim merge globals (VClo (direct St [] (rendering St e)) 0 []) w.
Proof.
  intros Hp Hf Hs Ht Ha Hc Hw. pose proof (C80_annotates_only _ Ht _ _ _ Ha) as E.
  rewrite <- (rendering_direct St sigs e e' E).
  apply (C79_sound_partial (with_sigs St sigs) prim merge globals e' self c w Hp); auto; [apply with_sigs_fits; exact Hf |].
  apply (proj2 (supported_erase e')). rewrite E. apply (proj1 (supported_erase e)). exact Hs.
Qed.
End Compiled.

Print Assumptions C80_terminates.
Print Assumptions C80_annotates_only.
Print Assumptions C80_flags_exact.
Print Assumptions C80_signatures_exact.
Print Assumptions C80_overused.
Print Assumptions C80_signatures_recorded.
Print Assumptions C80_sound_partial.

(** * Examples *)
Definition adding : list (string * list Basics.Model.demand) := [("ADD"%string, [strict_once; strict_once])].
Definition some_setting : settings (native := nat) :=
  let S0 := some_settings [] in
  mkSettings (s_annotations S0) (s_render S0) (s_suppress_updates S0) (s_suppress_inlining S0) (s_catalogue S0) (s_intrinsics S0)
    adding (s_prelude_globals S0) [] [] (s_position S0) (s_string S0) (s_symbol S0) (s_number S0).
Lemma adding_proper : Forall (fun x => Forall proper_entry (snd x)) adding.
Proof. apply Forall_cons; [| apply Forall_nil]. apply Forall_cons; [apply strict_once_known |]. apply Forall_cons; [apply strict_once_known | apply Forall_nil]. Qed.
Lemma some_setting_fits : fits some_setting some_globals.
Proof. destruct (some_fit []) as [H1 H2 H3 H4 H5 H6 H7]. constructor; assumption. Qed.
(** [let f(x, y) = g(y) ADD 1; g(y) = f(y, y); h(x, y) = f(y, 2); z = h; u = 3 in z], with metadata on [h]. *)
Definition tangled : expr :=
  let v n := EVar (Bound 1 n None) in
  ELet [bound_as default_demand (ELam false ["x"; "y"]%string (apply (ENode (KIntrinsic "ADD"%string) []) [apply (v 1) [here 1]; num "1"%string]));
        bound_as default_demand (ELam false ["y"]%string (apply (v 0) [here 0; here 0]));
        mkBinding "h"%string (ENode KMeta [ELam false ["x"; "y"]%string (apply (v 0) [here 1; num "2"%string]); num "0"%string]) default_demand;
        bound_as default_demand (here 2); bound_as default_demand (num "3"%string)]
    (here 3) OtherLet.
Definition flags (e : expr) : list Basics.Model.demand := match e with ELet bs _ _ => map b_demand bs | _ => [] end.
Example C80_example : exists e' sigs, analyse_demands adding tangled = Some (e', sigs) /\
  flags e' = [mkD CMulti SStrict false true; mkD CMulti SStrict false true; mkD CAtMostOnce SStrict false false; strict_once; demand_absent] /\
  In ("h"%string, [demand_absent; lazy_multi]) sigs.
Proof. eexists _, _. split; [vm_compute; reflexivity |]. split; [reflexivity | vm_compute; auto]. Qed.
(** [let x = 1; f = y -> x; u = 2 in f(u)]: [u] is passed to a variable; the parameter of [f] is absent. *)
Example C80_overused_example : exists e' sigs bs body t b, analyse_demands adding
    (ELet [bound_as default_demand (num "1"%string); bound_as default_demand (ELam false ["y"%string] (EVar (Bound 1 0 None))); bound_as default_demand (num "2"%string)]
      (apply (here 1) [here 2]) OtherLet) = Some (e', sigs) /\
  part (ELet bs body t) e' /\ nth_error bs 2 = Some b /\ overused bs body 2 /\ map snd sigs = [[demand_absent]].
Proof.
  eexists _, _, _, _, _, _. split; [vm_compute; reflexivity |]. split; [apply pt_self |]. split; [reflexivity |]. split; [| reflexivity].
  apply ov_body; [cbn; auto |]. apply (my_opaque (here 1) [here 2] (here 2)); [exact Logic.I | left; reflexivity | apply us_var].
Qed.
Example C80_sound_example : exists e' sigs c, analyse_demands (s_intrinsic_sigs some_setting) sample = Some (e', sigs) /\
  compile (with_sigs some_setting sigs) e' None = Ok c /\ shows sum 0%N some_globals (VClo c 0 []) sample_view.
Proof.
  let r := eval vm_compute in (analyse_demands (s_intrinsic_sigs some_setting) sample) in
  let ans := match r with Some ?p => p end in
  let e' := eval cbn in (fst ans) in let sigs := eval cbn in (snd ans) in
  let code := eval vm_compute in (code_of (compile (with_sigs some_setting sigs) e' None)) in
  exists e', sigs, code; set (c := code).
  split; [vm_compute; reflexivity |]. split; [vm_compute; reflexivity |].
  assert (H : exists h', Machine.Props.show0 some_globals c sample_view = Some h') by (eexists; vm_compute; reflexivity).
  destruct H as [h' H]. apply Machine.Props.show0_spec in H. destruct H as [H _].
  eapply Machine.Props.C41_machine_sound_partial; [apply some_plain; cbn; repeat split | exact H].
Qed.

(** ** What is not so *)

(** Without the analysis the program shows something, with it it has no result at all. *)
Definition loses (St : settings (native := nat)) (e : expr) (w : view (native := nat)) : Prop :=
  exists e' sigs c c', erase e = e /\ analyse_demands (s_intrinsic_sigs St) e = Some (e', sigs) /\
    compile St e None = Ok c /\ compile (with_sigs St sigs) e' None = Ok c' /\
    shows sum 0%N some_globals (VClo c 0 []) w /\ forall v, ~ result sum 0%N some_globals (VClo c' 0 []) v.
Ltac losing St e :=
  let r := eval vm_compute in (analyse_demands (s_intrinsic_sigs St) e) in
  let ans := match r with Some ?p => p end in
  let e' := eval cbn in (fst ans) in let sigs := eval cbn in (snd ans) in
  let c := eval vm_compute in (code_of (compile St e None)) in
  let c' := eval vm_compute in (code_of (compile (with_sigs St sigs) e' None)) in
  exists e', sigs, c, c'; split; [reflexivity |]; split; [vm_compute; reflexivity |]; split; [vm_compute; reflexivity |]; split; [vm_compute; reflexivity |]; split;
  [ match goal with |- shows _ _ _ _ ?w =>
      let H := fresh in assert (H : exists h', Machine.Props.show0 some_globals c w = Some h') by (eexists; vm_compute; reflexivity);
      destruct H as [h' H]; apply Machine.Props.show0_spec in H; destruct H as [H _];
      eapply Machine.Props.C41_machine_sound_partial; [apply some_plain; cbn; repeat split | exact H] end
  | eapply Machine.Props.no_result; [repeat (eapply reaches_step; [reflexivity |]); apply reaches_refl | reflexivity | apply not_final_stack] ].
(** [let x = [] + 1 in [x, x]]: an element of a list is taken to be asked for. *)
Theorem C80_strict_refuted : loses some_setting (ELet [bound_as default_demand failing] (ENode KList [here 0; here 0]) OtherLet) (SeenData 7 [Unseen; Unseen]).
Proof. losing some_setting (ELet [bound_as default_demand failing] (ENode KList [here 0; here 0]) OtherLet). Qed.
(** [let x = [] + 1 in y -> x + x]: so is what a function uses when it is called. *)
Definition captured : expr :=
  ELet [bound_as default_demand failing] (ELam false ["y"%string] (apply (ENode (KIntrinsic "ADD"%string) []) [EVar (Bound 1 0 None); EVar (Bound 1 0 None)])) OtherLet.
Theorem C80_function_refuted : loses some_setting captured (SeenFunction 1).
Proof. losing some_setting captured. Qed.
(** [let f(x, y) = y + y; g = let f(x, y) = x in f(1, [] + 1) in g]: signatures go by name, so the inner
    function is called with the outer one's. *)
Definition shadowed : expr :=
  let f := Some "f"%string in
  ELet [mkBinding "f"%string (ELam false ["x"; "y"]%string (apply (ENode (KIntrinsic "ADD"%string) []) [here 1; here 1])) default_demand;
        mkBinding "g"%string
          (ELet [mkBinding "f"%string (ELam false ["x"; "y"]%string (here 0)) default_demand]
             (apply (EVar (Bound 0 0 f)) [num "1"%string; failing]) OtherLet) default_demand]
    (here 1) OtherLet.
Theorem C80_names_refuted : loses some_setting shadowed (SeenData 3 [SeenNative 1]).
Proof. losing some_setting shadowed. Qed.
Print Assumptions C80_strict_refuted.
Print Assumptions C80_function_refuted.
Print Assumptions C80_names_refuted.
