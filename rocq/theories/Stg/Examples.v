(** Concrete programs that meet the theorems' hypotheses, and what the theorems rest on. *)
From Coq Require Import List Bool Arith NArith Lia.
From Verif.Bytecode Require Import Model.
From Verif.Machine Require Import Model Spec.
From Verif.Stg Require Import Model Spec WrapSpec Props.
Import ListNotations.
Open Scope N_scope.

(** Natives are numbers here, standing for symbols and strings too. An intrinsic, number 199, of three
    arguments: a number, anything (not strict), a string. *)
Definition form_ := form N.
Definition mixed : list (ty * bool) := [(TNumber, true); (TOther, false); (TString, true)].
Definition ex_prim (i : N) (ns : list N) : prim_result (native := N) :=
  match ns with
  | [a; b] => if i =? ix_eq then RData (if a =? b then true_tag else false_tag) [] else RError
  | [a; b; c] => if i =? 199 then RNative (100 * a + 10 * b + c) else RError
  | _ => RError
  end.
Definition table : list (N * form_) := (199, wrap 199 mixed TNumber) :: wrappers 0 (fun i => i).
Definition runtime : list form_ :=
  map (fun i => match find (fun p => N.of_nat i =? fst p) table with Some p => snd p | None => value_ nil_ end) (seq 0 200).
Example ex_installed : installed 0 (fun i => i) runtime.
Proof.
  intros i w H. cbv [wrappers] in H. cbn [In] in H.
  repeat match type of H with _ \/ _ => destruct H as [[= <- <-] | H]; [reflexivity |] end. destruct H.
Qed.

Notation value := (Spec.value (native := N)).
Notation builds := (builds ex_prim 0 runtime).
Notation is_native := (is_native ex_prim 0 runtime).
Notation is_list := (is_list ex_prim 0 runtime).
Notation is_bool := (is_bool ex_prim 0 runtime).
Notation entry := (entry ex_prim 0 runtime).
(** Something that has no value. *)
Definition broken : value := VClo (SAtom (RL 5)) 0 [].
Example ex_broken v : ~ evals ex_prim 0 runtime broken v.
Proof. intros H. inversion H; subst; [lia | discriminate]. Qed.
Definition cell (tag : N) (vs : list value) : value := VClo (SCons tag (map (fun i => RL (N.of_nat i)) (seq 0 (length vs)))) 0 (bind vs []).
Definition con (h t : value) : value := cell cons_tag [h; t].
Definition nil : value := cell nil_tag [].
Definition sym (n : N) : value := cell symbol_tag [VNat n].
Definition num (n : N) : value := cell number_tag [VNat n].
Definition str (n : N) : value := cell string_tag [VNat n].
Lemma native n : is_native (VNat n) n.
Proof. apply st_plain; [constructor | reflexivity]. Qed.
Ltac data := apply Rules.builds_data; reflexivity.
Example ex_pair k v : entry (cell pair_tag [VNat k; v]) k v.
Proof. left. exists (VNat k). split; [data | apply native]. Qed.
Example ex_kv_list k v : entry (cell kv_list_tag [con (sym k) (con v nil)]) k v.
Proof.
  right. eexists. split; [data |]. eexists _, _, _. split; [data |]. split; [| data].
  exists (VNat k). split; [data | apply native].
Qed.

(** { 1: broken, 2: 7, 2: broken, broken... }: the value for key 2. *)
Definition ex_block : value :=
  cell block_tag
    [con (cell pair_tag [VNat 1; broken])
       (con (cell kv_list_tag [con (sym 2) (con (num 7) nil)])
          (con (cell pair_tag [VNat 2; broken]) broken)); VNat 0].
Example ex_lookup d : call_is ex_prim 0 runtime ix_lookup_or [sym 2; d; ex_block] (num 7) /\
  call_is ex_prim 0 runtime ix_lookup [sym 2; ex_block] (num 7) /\
  call_is ex_prim 0 runtime ix_safe_lookup [ex_block; sym 2] (num 7).
Proof.
  destruct (C50_first_match ex_prim 0 runtime 0 (fun i => i) ex_installed N.eqb (fun a b => eq_refl)
    ex_block (con (cell pair_tag [VNat 1; broken]) (con (cell kv_list_tag [con (sym 2) (con (num 7) nil)])
          (con (cell pair_tag [VNat 2; broken]) broken)))
    [cell pair_tag [VNat 1; broken]] (cell kv_list_tag [con (sym 2) (con (num 7) nil)])
    (con (cell pair_tag [VNat 2; broken]) broken) [(1, broken)] 2 (num 7) (sym 2) (VNat 2) 2 d) as (H1 & _ & H3 & H4); auto.
  - eexists. data.
  - econstructor; [data |]. econstructor; [data | constructor].
  - constructor; [apply ex_pair | constructor].
  - apply ex_kv_list.
  - data.
  - apply native.
Qed.
Example ex_missing d : call_is ex_prim 0 runtime ix_lookup_or [sym 3; d; cell block_tag [con (cell pair_tag [VNat 1; broken]) nil; VNat 0]] d.
Proof.
  eapply (C50_no_match ex_prim 0 runtime 0 (fun i => i) ex_installed N.eqb (fun a b => eq_refl) _ _
    [cell pair_tag [VNat 1; broken]] [(1, broken)] (sym 3) (VNat 3) 3).
  - eexists. data.
  - exists nil. split; [econstructor; [data | constructor] | data].
  - constructor; [apply ex_pair | constructor].
  - constructor; [reflexivity | constructor].
  - data.
  - apply native.
Qed.
Example ex_not_a_block d : call_fails ex_prim 0 runtime ix_lookup_or [sym 3; d; num 4].
Proof.
  eapply (C50_not_a_block ex_prim 0 runtime 0 (fun i => i) ex_installed (num 4) (sym 3) (VNat 3)); [| data].
  intros (args & e & H). inversion H as [? ? He _ | ? ? ? ? ? ? He]; subst; inversion He; subst; lia.
Qed.
(** [[1, broken], pair 2 7] as a block, and its elements. *)
Definition ex_items : value := con (con (sym 1) (con broken nil)) (con (cell pair_tag [VNat 2; num 7]) nil).
Lemma ex_items_list : is_list ex_items [con (sym 1) (con broken nil); cell pair_tag [VNat 2; num 7]].
Proof. exists nil. split; [econstructor; [data | econstructor; [data | constructor]] | data]. Qed.
Lemma ex_items_are : items ex_prim 0 runtime [con (sym 1) (con broken nil); cell pair_tag [VNat 2; num 7]] [(1, broken); (2, num 7)].
Proof.
  constructor; [| constructor; [left; apply ex_pair | constructor]].
  right. eexists _, _, _. split; [data |]. split; [| data]. exists (VNat 1). split; [data | apply native].
Qed.
Example ex_elements : exists qs,
  is_list (VClo (call ix_elements [RL 0]) 0 [Vals [VClo (call ix_block [RL 0]) 0 [Vals [ex_items]]]]) qs /\
  Forall2 (fun q kv => key_value_list ex_prim 0 runtime q (fst kv) (snd kv)) qs [(1, broken); (2, num 7)].
Proof.
  eapply (C51_round_trip ex_prim 0 runtime 0 (fun i => i) ex_installed ex_items); [apply ex_items_list | apply ex_items_are | | reflexivity]. reflexivity.
Qed.
Example ex_made_lookup d : call_is ex_prim 0 runtime ix_lookup_or [sym 2; d; VClo (call ix_block [RL 0]) 0 [Vals [ex_items]]] (num 7).
Proof.
  eapply (C51_block_lookup ex_prim 0 runtime 0 (fun i => i) ex_installed N.eqb ex_items _ [(1, broken)] 2 (num 7) [] (sym 2) (VNat 2) 2);
    [reflexivity | apply ex_items_list | apply ex_items_are | repeat constructor | reflexivity | data | apply native | reflexivity].
Qed.
Example ex_and : is_bool (VClo (call ix_and [RL 0; RL 1]) 0 [Vals [cell false_tag []; broken]]) false.
Proof. apply (proj1 (C52_and ex_prim 0 runtime 0 (fun i => i) ex_installed (cell false_tag []) broken)); [data | reflexivity]. Qed.
Example ex_if : call_is ex_prim 0 runtime ix_if [cell true_tag []; num 1; broken] (num 1).
Proof. apply (C52_if ex_prim 0 runtime 0 (fun i => i) ex_installed (cell true_tag []) (num 1) broken) with (b := true). data. Qed.
(** [clause false broken, clause true 7, broken] *)
Example ex_cond : call_is ex_prim 0 runtime ix_cond
  [con (cell clause_tag [cell false_tag []; broken]) (con (cell clause_tag [cell true_tag []; num 7]) broken)] (num 7).
Proof.
  assert (H := C52_cond ex_prim 0 runtime 0 (fun i => i) ex_installed
    (con (cell clause_tag [cell false_tag []; broken]) (con (cell clause_tag [cell true_tag []; num 7]) broken))
    [cell clause_tag [cell false_tag []; broken]] (con (cell clause_tag [cell true_tag []; num 7]) broken)).
  destruct H as [H _].
  - econstructor; [data | constructor].
  - constructor; [| constructor]. eexists _, _. split; data.
  - eapply H; data.
Qed.
(** The intrinsic of three arguments, the second of which is not evaluated by the wrapper. *)
Example ex_wrapped : exists q,
  builds (VClo (call 199 [RL 0; RL 1; RL 2]) 0 [Vals [num 1; VNat 2; str 3]]) number_tag [q] /\
  forall v, evals ex_prim 0 runtime q v <-> returns ex_prim 0 runtime 199 [VNat 1; VNat 2; VNat 3] v.
Proof.
  assert (Hd : forall k tag (p : value) fs, builds p tag fs -> (exists n, p = num n \/ p = str n) -> box_tag k = Some tag -> exists r, fs = [r]).
  { intros k tag p fs Hb [n [-> | ->]] _.
    - destruct (Rules.builds_unique ex_prim 0 runtime _ _ _ number_tag [VNat n] Hb) as [_ ->]; [data | eauto].
    - destruct (Rules.builds_unique ex_prim 0 runtime _ _ _ string_tag [VNat n] Hb) as [_ ->]; [data | eauto]. }
  apply (C53_wrapper_boxed ex_prim 0 runtime 199 mixed) with (ret := TNumber) (ps := [num 1; VNat 2; str 3]).
  - discriminate.
  - reflexivity.
  - reflexivity.
  - reflexivity.
  - constructor; [| constructor; [| constructor; [| constructor]]].
    + intros k tag fs Hk Hb. eapply Hd; eauto.
    + intros k tag fs Hk Hb. exfalso. eapply Rules.builds_not_native; [exact Hb | apply native].
    + intros k tag fs Hk Hb. eapply Hd; eauto.
  - reflexivity.
  - constructor; [| constructor; [| constructor; [| constructor]]].
    + eapply ha_boxed; [reflexivity | data | apply native].
    + constructor.
    + eapply ha_boxed; [reflexivity | data | apply native].
Qed.
Example ex_returned : returns ex_prim 0 runtime 199 [VNat 1; VNat 2; VNat 3] (VNat 123).
Proof. exists [1; 2; 3]. split; [repeat constructor | reflexivity]. Qed.
Example ex_numbers : is_list (VClo (call ix_seq_num_list [RL 0]) 0 [Vals [con (num 5) (con (VNat 6) nil)]]) [VNat 5; VNat 6].
Proof.
  eapply (C54_numbers ex_prim 0 runtime 0 (fun i => i) ex_installed (con (num 5) (con (VNat 6) nil)) [num 5; VNat 6] [5; 6]).
  - exists nil. split; [econstructor; [data | econstructor; [data | constructor]] | data].
  - constructor; [| constructor; [| constructor]]; [left; exists (VNat 5); split; [data | apply native] | right; apply native].
  - reflexivity.
Qed.
Example ex_spine : builds (VClo (call ix_seq_spine [RL 0]) 0 [Vals [con broken nil]]) nil_tag [].
Proof.
  apply (C54_spine ex_prim 0 runtime 0 (fun i => i) ex_installed (con broken nil)) with (ps := [broken]); [| reflexivity].
  exists nil. split; [econstructor; [data | constructor] | data].
Qed.
Example ex_meta : call_is ex_prim 0 runtime ix_raw_meta [VClo (call ix_with_meta [RL 0; RL 1]) 0 [Vals [num 1; broken]]] (num 1).
Proof. apply (C55_metadata ex_prim 0 runtime 0 (fun i => i) ex_installed (num 1) broken). reflexivity. Qed.

Print Assumptions C50_first_match.
Print Assumptions C50_no_match.
Print Assumptions C50_not_a_block.
Print Assumptions C51_block_entries.
Print Assumptions C51_elements.
Print Assumptions C51_round_trip.
Print Assumptions C51_block_lookup.
Print Assumptions C51_entry_parts.
Print Assumptions C52_and.
Print Assumptions C52_or.
Print Assumptions C52_not.
Print Assumptions C52_if.
Print Assumptions C52_cond.
Print Assumptions C52_lists.
Print Assumptions C53_wrapper_plain.
Print Assumptions C53_wrapper_boxed.
Print Assumptions C53_handed_unique.
Print Assumptions C54_numbers.
Print Assumptions C54_strings.
Print Assumptions C54_whole_list.
Print Assumptions C54_spine.
Print Assumptions C55_metadata.
Print Assumptions C55_no_metadata.
