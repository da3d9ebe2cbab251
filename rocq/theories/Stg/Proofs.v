(** What the wrappers compute. *)
From Coq Require Import List Bool Arith NArith Lia.
From Verif.Bytecode Require Import Model Spec.
From Verif.Machine Require Import Model Spec Name Curry.
From Verif.Stg Require Import Model Spec Rules.
Import ListNotations.
Open Scope nat_scope.

Section Proofs.
Context {native : Type}.
Notation syn := (syn native).
Notation form := (form native).
Notation value := (Spec.value (native := native)).
Variable prim : N -> list native -> prim_result (native := native).
Variable merge : N.
Variable globals : list form.
Variable zero : native.
Variable message : N -> native.
Variable eqb : native -> native -> bool.
Notation evals := (evals prim merge globals).
Notation strips := (strips prim merge globals).
Notation variable := (Spec.variable globals).
Notation variables := (variables globals).
Notation same := (same prim merge globals).
Notation builds := (builds prim merge globals).
Notation is_native := (is_native prim merge globals).
Notation is_bool := (is_bool prim merge globals).
Notation boxes := (boxes prim merge globals).
Notation begins := (Spec.begins prim merge globals).
Notation is_list := (is_list prim merge globals).
Notation entry := (entry prim merge globals).
Notation is_block := (is_block prim merge globals).
Notation call_is := (call_is prim merge globals).
Notation call_fails := (call_fails prim merge globals).
Hypothesis Hinst : installed zero message globals.
Hypothesis Heq : forall a b, prim ix_eq [a; b] = RData (if eqb a b then true_tag else false_tag) [].

Ltac member := cbv [wrappers]; cbn [In]; tauto.
(** One step of calculation, then go on. *)
Ltac go tac := eapply same_trans; [tac |].
Ltac atom := eapply same_atom; reflexivity.
Ltac built H := eapply builds_of; [apply same_atom; reflexivity | exact H].
Ltac branch H := eapply same_case; [built H | reflexivity].
Ltac entering := eapply same_call; [apply Hinst; member | reflexivity | cbn; lia | reflexivity].

(** From the code of a wrapper to a call of it. *)
Lemma call_of i n body args q : In (i, lambda n body) (wrappers zero message) -> N.to_nat n = length args -> 0 < length args ->
  same (VClo body 0 [Vals args]) q -> call_is i args q.
Proof.
  intros Hi Hn Hl H e refs Hv. pose proof (variables_length globals _ _ _ Hv) as Hlen.
  eapply same_trans; [eapply same_call; [apply Hinst; exact Hi | lia | lia | exact Hv] | exact H].
Qed.
Lemma call_fails_of i n body args : In (i, lambda n body) (wrappers zero message) -> N.to_nat n = length args -> 0 < length args ->
  (forall v, ~ evals (VClo body 0 [Vals args]) v) -> call_fails i args.
Proof.
  intros Hi Hn Hl H e refs v Hv He. pose proof (variables_length globals _ _ _ Hv) as Hlen.
  apply (H v). revert He.
  apply (same_call prim merge globals e i n body refs args); [apply Hinst; exact Hi | lia | lia | exact Hv].
Qed.
Lemma strips_atom e r p w : variable e r = Some p -> strips p w -> strips (VClo (SAtom r) 0 e) w.
Proof. intros H. apply strips_of, same_atom. exact H. Qed.
Lemma no_branch scr bs e w v : strips (VClo scr 0 e) w -> selects w bs = None -> ~ evals (VClo (SCase scr bs None) 0 e) v.
Proof.
  intros Hs Hn H. inversion H; subst; try lia.
  pose proof (strips_unique prim merge globals _ _ _ Hs ltac:(eassumption)) as E. subst. cbn [selects] in Hn. congruence.
Qed.
Lemma no_scrutinee scr bs fb e v : (forall w, ~ strips (VClo scr 0 e) w) -> ~ evals (VClo (SCase scr bs fb) 0 e) v.
Proof. intros Hs H. inversion H; subst; try lia; eapply Hs; eassumption. Qed.
Lemma strips_evals p w : strips p w -> exists v, evals p v.
Proof. destruct 1; eauto. Qed.


Lemma switch_needs scr bs e v : evals (VClo (switch scr bs) 0 e) v ->
  exists tag fs b, builds (VClo scr 0 e) tag fs /\ branch_for tag bs = Some b.
Proof. unfold switch. intros H. inversion H; subst; try lia. eexists _, _, _. split; [eexists _, _; split; eassumption | eassumption]. Qed.
Lemma builds_same p q tag fs : same p q -> (builds p tag fs <-> builds q tag fs).
Proof. intros H. split; apply builds_of; [apply same_sym |]; exact H. Qed.
Lemma builds_self p tag fs w : strips p w -> builds p tag fs -> builds w tag fs.
Proof.
  intros Hw (args & e & Hs & Hv). pose proof (strips_unique prim merge globals _ _ _ Hw Hs) as ->.
  exists args, e. split; [eapply strips_self; exact Hs | exact Hv].
Qed.
Lemma builds_strips p tag fs : builds p tag fs -> exists w, strips p w /\ builds w tag fs.
Proof. intros H. pose proof H as (args & e & Hs & Hv). eexists. split; [exact Hs |]. eapply builds_self; eassumption. Qed.
Lemma native_of p q n : same p q -> is_native q n -> is_native p n.
Proof. apply strips_of. Qed.
Lemma native_evals p w n : strips p w -> is_native p n -> evals w (VNat n).
Proof. intros H1 H2. rewrite (strips_unique prim merge globals _ _ _ H1 H2). constructor. Qed.
Lemma same_force scr then_ e w : strips (VClo scr 0 e) w -> same (VClo (force scr then_) 0 e) (VClo then_ 0 (Vals [w] :: e)).
Proof. intros H. apply same_fallback; [exact H |]. destruct w as [| c n ? |]; try reflexivity. destruct c, n; reflexivity. Qed.

(** ** Boolean operators *)
Lemma is_bool_data b e : is_bool (VClo (SCons (if b : bool then true_tag else false_tag) []) 0 e) b.
Proof. apply builds_data. reflexivity. Qed.
Lemma is_bool_of p q b : same p q -> is_bool q b -> is_bool p b.
Proof. apply builds_of. Qed.

Lemma not_is p b : is_bool p b -> is_bool (VClo (snd (not_ (native := native))) 0 [Vals [p]]) (negb b).
Proof. intros H. destruct b; (eapply is_bool_of; [branch H | apply builds_data; reflexivity]). Qed.
Lemma and_false p q : is_bool p false -> is_bool (VClo (snd (and_ (native := native))) 0 [Vals [p; q]]) false.
Proof. intros H. eapply is_bool_of; [branch H | apply builds_data; reflexivity]. Qed.
Lemma and_true p q b : is_bool p true -> is_bool q b -> is_bool (VClo (snd (and_ (native := native))) 0 [Vals [p; q]]) b.
Proof.
  intros H Hq. eapply is_bool_of; [branch H |].
  destruct b; (eapply is_bool_of; [branch Hq | apply builds_data; reflexivity]).
Qed.
Lemma or_true p q : is_bool p true -> is_bool (VClo (snd (or_ (native := native))) 0 [Vals [p; q]]) true.
Proof. intros H. eapply is_bool_of; [branch H | apply builds_data; reflexivity]. Qed.
Lemma or_false p q b : is_bool p false -> is_bool q b -> is_bool (VClo (snd (or_ (native := native))) 0 [Vals [p; q]]) b.
Proof.
  intros H Hq. eapply is_bool_of; [branch H |].
  destruct b; (eapply is_bool_of; [branch Hq | apply builds_data; reflexivity]).
Qed.

(** ** Equality of natives *)
Lemma eq_natives p q x y : is_native p x -> is_native q y ->
  is_bool (VClo (snd (eq (native := native))) 0 [Vals [p; q]]) (eqb x y).
Proof.
  intros Hp Hq. unfold eq.
  eapply is_bool_of.
  { go ltac:(eapply (same_fallback prim merge globals _ _ _ _ (VNat x)); [eapply strips_atom; [reflexivity | exact Hp] | reflexivity]).
    go ltac:(eapply (same_fallback prim merge globals _ _ _ _ (VNat y)); [eapply strips_atom; [reflexivity | exact Hq] | reflexivity]).
    eapply (same_prim prim merge globals _ _ _ [VNat x; VNat y] [x; y]); [reflexivity | |].
    - repeat constructor.
    - rewrite Heq. reflexivity. }
  apply builds_data. reflexivity.
Qed.

(** ** Entries *)
Lemma matches_is p q k v y : entry p k v -> is_native q y ->
  is_bool (VClo (snd (matches_key message)) 0 [Vals [p; q]]) (eqb k y).
Proof.
  intros [(key & Hp & Hk) | (l & Hp & key & tl & rest & Hl & (raw & Hkey & Hraw) & Ht)] Hy; cbn [snd matches_key lambda].
  - eapply is_bool_of; [go ltac:(branch Hp); entering |]. apply eq_natives; assumption.
  - eapply is_bool_of.
    { go ltac:(branch Hp). go ltac:(branch Hl). go ltac:(branch Hkey). entering. }
    apply eq_natives; assumption.
Qed.
Lemma extract_value_is p k v : entry p k v -> same (VClo (snd (extract_value message)) 0 [Vals [p]]) v.
Proof.
  intros [(key & Hp & Hk) | (l & Hp & key & tl & rest & Hl & (raw & Hkey & Hraw) & Ht)]; cbn [snd extract_value lambda].
  - go ltac:(branch Hp). atom.
  - go ltac:(branch Hp). go ltac:(branch Hl). go ltac:(branch Ht). atom.
Qed.
Lemma extract_key_is p k v : entry p k v -> is_native (VClo (snd (extract_key message)) 0 [Vals [p]]) k.
Proof.
  intros [(key & Hp & Hk) | (l & Hp & key & tl & rest & Hl & (raw & Hkey & Hraw) & Ht)]; cbn [snd extract_key lambda].
  - eapply native_of; [go ltac:(branch Hp); atom | exact Hk].
  - eapply native_of; [go ltac:(branch Hp); go ltac:(branch Hl); go ltac:(branch Hkey); atom | exact Hraw].
Qed.

(** ** Searching *)
Section Find.
Variable e' : Spec.env (native := native).
Let rec_ : Spec.scope (native := native) := Rec [find_form message].
Let self : value := closure (rec_ :: e') (find_form message).
Definition finding (l key default : value) : value :=
  VClo (snd (find_form message)) 0 (Vals [l; key; default; self] :: rec_ :: e').
Lemma find_next l p tl key y k v d : builds l cons_tag [p; tl] -> entry p k v -> is_native key y -> eqb k y = false ->
  same (finding l key d) (finding tl key d).
Proof.
  intros Hl Hp Hk Hn. unfold finding. cbn [snd find_form lambda].
  go ltac:(branch Hl).
  pose proof (matches_is p key k v y Hp Hk) as Hm. rewrite Hn in Hm.
  go ltac:(eapply same_case; [eapply builds_of; [entering | exact Hm] | reflexivity]).
  eapply same_call_rec; [reflexivity | reflexivity | cbn; lia | reflexivity].
Qed.
Lemma find_here l p tl key y k v d : builds l cons_tag [p; tl] -> entry p k v -> is_native key y -> eqb k y = true ->
  same (finding l key d) v.
Proof.
  intros Hl Hp Hk Hn. unfold finding. cbn [snd find_form lambda].
  go ltac:(branch Hl).
  pose proof (matches_is p key k v y Hp Hk) as Hm. rewrite Hn in Hm.
  go ltac:(eapply same_case; [eapply builds_of; [entering | exact Hm] | reflexivity]).
  go ltac:(entering). eapply extract_value_is. exact Hp.
Qed.
Lemma find_none l key d : builds l nil_tag [] -> same (finding l key d) d.
Proof. intros Hl. unfold finding. cbn [snd find_form lambda]. go ltac:(branch Hl). atom. Qed.
Lemma find_past l ps rest kvs key y d : begins l ps rest -> entries prim merge globals ps kvs -> is_native key y ->
  Forall (fun kv => eqb (fst kv) y = false) kvs -> same (finding l key d) (finding rest key d).
Proof.
  intros Hb. revert kvs. induction Hb as [| l h tl ps rest Hl Hb IH]; intros kvs He Hk Hn.
  - apply same_refl.
  - inversion He; subst. inversion Hn; subst.
    eapply same_trans; [eapply find_next; eassumption |]. eapply IH; eassumption.
Qed.
End Find.
Section SafeFind.
Variable e' : Spec.env (native := native).
Let rec_ : Spec.scope (native := native) := Rec [safe_find message].
Let self : value := closure (rec_ :: e') (safe_find message).
Definition safe_finding (l key : value) : value :=
  VClo (snd (safe_find message)) 0 (Vals [l; key; self] :: rec_ :: e').
Lemma safe_find_next l p tl key y k v : builds l cons_tag [p; tl] -> entry p k v -> is_native key y -> eqb k y = false ->
  same (safe_finding l key) (safe_finding tl key).
Proof.
  intros Hl Hp Hk Hn. unfold safe_finding. cbn [snd safe_find lambda].
  go ltac:(branch Hl).
  pose proof (matches_is p key k v y Hp Hk) as Hm. rewrite Hn in Hm.
  go ltac:(eapply same_case; [eapply builds_of; [entering | exact Hm] | reflexivity]).
  eapply same_call_rec; [reflexivity | reflexivity | cbn; lia | reflexivity].
Qed.
Lemma safe_find_here l p tl key y k v : builds l cons_tag [p; tl] -> entry p k v -> is_native key y -> eqb k y = true ->
  same (safe_finding l key) v.
Proof.
  intros Hl Hp Hk Hn. unfold safe_finding. cbn [snd safe_find lambda].
  go ltac:(branch Hl).
  pose proof (matches_is p key k v y Hp Hk) as Hm. rewrite Hn in Hm.
  go ltac:(eapply same_case; [eapply builds_of; [entering | exact Hm] | reflexivity]).
  go ltac:(entering). eapply extract_value_is. exact Hp.
Qed.
Lemma safe_find_none l key : builds l nil_tag [] -> builds (safe_finding l key) unit_tag [].
Proof. intros Hl. unfold safe_finding. cbn [snd safe_find lambda]. eapply builds_of; [branch Hl |]. apply builds_data. reflexivity. Qed.
Lemma safe_find_past l ps rest kvs key y : begins l ps rest -> entries prim merge globals ps kvs -> is_native key y ->
  Forall (fun kv => eqb (fst kv) y = false) kvs -> same (safe_finding l key) (safe_finding rest key).
Proof.
  intros Hb. revert kvs. induction Hb as [| l h tl ps rest Hl Hb IH]; intros kvs He Hk Hn.
  - apply same_refl.
  - inversion He; subst. inversion Hn; subst.
    eapply same_trans; [eapply safe_find_next; eassumption |]. eapply IH; eassumption.
Qed.
End SafeFind.

Ltac no_index_step := eapply same_case; [apply builds_data; reflexivity | reflexivity].
Ltac calling := eapply same_call_rec; [reflexivity | reflexivity | cbn; lia | reflexivity].

Lemma unboxed_search b es key d : is_block b es ->
  exists e', same (VClo (snd (lookup_or_unboxed message)) 0 [Vals [key; d; b]]) (finding e' es key d).
Proof.
  intros (ix & Hb). eexists. cbn [snd lookup_or_unboxed lambda].
  go ltac:(branch Hb). go ltac:(apply same_letrec). go ltac:(no_index_step). calling.
Qed.
Lemma boxed_search b es key raw d : is_block b es -> builds key symbol_tag [raw] ->
  exists e', same (VClo (snd (lookup_or message)) 0 [Vals [key; d; b]]) (finding e' es raw d).
Proof.
  intros (ix & Hb) Hk. eexists. cbn [snd lookup_or lambda].
  go ltac:(branch Hb). go ltac:(apply same_letrec). go ltac:(branch Hk). go ltac:(no_index_step). calling.
Qed.
Lemma safe_search b es key raw : is_block b es -> builds key symbol_tag [raw] ->
  exists e', same (VClo (snd (safe_lookup message)) 0 [Vals [b; key]]) (safe_finding e' es raw).
Proof.
  intros (ix & Hb) Hk. eexists. cbn [snd safe_lookup lambda].
  go ltac:(branch Hb). go ltac:(apply same_letrec). go ltac:(branch Hk). go ltac:(no_index_step). calling.
Qed.
End Proofs.
