(** Conditions, lists and blocks. *)
From Coq Require Import List Bool Arith NArith Lia.
From Verif.Bytecode Require Import Model Spec EncProofs.
From Verif.Machine Require Import Model Spec Name Curry.
From Verif.Stg Require Import Model Spec Rules Proofs.
Import ListNotations.
Open Scope nat_scope.

Section Data.
Context {native : Type}.
Notation syn := (syn native).
Notation form := (form native).
Notation value := (Spec.value (native := native)).
Variable prim : N -> list native -> prim_result (native := native).
Variable merge : N.
Variable globals : list form.
Variable zero : native.
Variable message : N -> native.
Notation evals := (evals prim merge globals).
Notation strips := (strips prim merge globals).
Notation variable := (Spec.variable globals).
Notation variables := (variables globals).
Notation same := (same prim merge globals).
Notation builds := (builds prim merge globals).
Notation is_native := (is_native prim merge globals).
Notation is_bool := (is_bool prim merge globals).
Notation boxes := (boxes prim merge globals).
Notation begins := (Spec.begins prim merge globals).
Notation is_list := (is_list prim merge globals).
Notation entry := (entry prim merge globals).
Notation is_block := (is_block prim merge globals).
Notation call_is := (call_is prim merge globals).
Notation call_fails := (call_fails prim merge globals).
Hypothesis Hinst : installed zero message globals.

Ltac member := cbv [wrappers]; cbn [In]; tauto.
(** One step of calculation, then go on. *)
Ltac go tac := eapply same_trans; [tac |].
Ltac atom := eapply same_atom; reflexivity.
Ltac built H := eapply builds_of; [apply same_atom; reflexivity | exact H].
Ltac branch H := eapply same_case; [built H | reflexivity].
Ltac entering := eapply same_call; [apply Hinst; member | reflexivity | cbn; lia | reflexivity].



Lemma selects_none p w bs : strips p w -> (forall tag, In tag (map fst bs) -> ~ of_kind prim merge globals p tag) -> selects w bs = None.
Proof.
  intros Hs H. destruct w as [n | c [|n] e | f args]; try reflexivity; destruct c; try reflexivity.
  cbn [selects]. apply branch_for_none. intros b Hb E. subst. apply (H (fst b)).
  - apply in_map. exact Hb.
  - eexists _, _. exact Hs.
Qed.
Lemma list_cons p h tl qs : builds p cons_tag [h; tl] -> is_list tl qs -> is_list p (h :: qs).
Proof. intros H (e & Hb & He). exists e. split; [econstructor; eassumption | exact He]. Qed.
Lemma list_nil p : builds p nil_tag [] -> is_list p [].
Proof. intros H. exists p. split; [constructor | exact H]. Qed.
Lemma list_self p w qs : strips p w -> is_list p qs -> is_list w qs.
Proof.
  intros Hw (e & Hb & He). inversion Hb; subst.
  - apply list_nil. eapply builds_self; eassumption.
  - eapply list_cons; [eapply builds_self; eassumption | exists e; auto].
Qed.
Lemma list_of p q qs : same p q -> is_list q qs -> is_list p qs.
Proof.
  intros Hs (e & Hb & He). inversion Hb; subst.
  - apply list_nil. eapply builds_of; eassumption.
  - eapply list_cons; [eapply builds_of; eassumption | exists e; auto].
Qed.
Lemma list_strips p qs : is_list p qs -> exists w, strips p w /\ is_list w qs.
Proof.
  intros H. assert (exists w, strips p w) as [w Hw].
  { destruct H as (e & Hb & (a & e1 & He & _)). inversion Hb as [| ? ? ? ? ? (a' & e2 & Hp & _)]; subst; eauto. }
  exists w. split; [exact Hw | eapply list_self; eassumption].
Qed.

(** ** COND *)
Definition choosing (l : value) : value := VClo (snd (cond (native := native))) 0 [Vals [l]].
Lemma cond_next l h tl c v : builds l cons_tag [h; tl] -> builds h clause_tag [c; v] -> is_bool c false ->
  same (choosing l) (choosing tl).
Proof.
  intros Hl Hh Hc. unfold choosing. cbn [snd cond lambda].
  go ltac:(branch Hl). go ltac:(branch Hh). go ltac:(branch Hc). entering.
Qed.
Lemma cond_here l h tl c v : builds l cons_tag [h; tl] -> builds h clause_tag [c; v] -> is_bool c true ->
  same (choosing l) v.
Proof.
  intros Hl Hh Hc. unfold choosing. cbn [snd cond lambda].
  go ltac:(branch Hl). go ltac:(branch Hh). go ltac:(branch Hc). atom.
Qed.
Lemma cond_else l h tl w : builds l cons_tag [h; tl] -> strips h w -> ~ of_kind prim merge globals h clause_tag ->
  same (choosing l) w.
Proof.
  intros Hl Hh Hc. unfold choosing. cbn [snd cond lambda].
  go ltac:(branch Hl).
  go ltac:(eapply same_fallback; [eapply strips_atom; [reflexivity | exact Hh] |]).
  { eapply selects_none; [exact Hh |]. intros tag [<- | []]. exact Hc. }
  atom.
Qed.
Lemma cond_nil l : builds l nil_tag [] -> builds (choosing l) unit_tag [].
Proof. intros Hl. unfold choosing. cbn [snd cond lambda]. eapply builds_of; [branch Hl |]. apply builds_data. reflexivity. Qed.
Lemma cond_past l ps rest : begins l ps rest ->
  Forall (fun p => exists c v, builds p clause_tag [c; v] /\ is_bool c false) ps -> same (choosing l) (choosing rest).
Proof.
  induction 1 as [| l h tl ps rest Hl Hb IH]; intros H; [apply same_refl |].
  inversion H as [| ? ? (c & v & Hh & Hc)]; subst.
  eapply same_trans; [eapply cond_next; eassumption | auto].
Qed.

(** ** Entries, made and taken apart *)
Lemma entry_of p q k v : same p q -> entry q k v -> entry p k v.
Proof.
  intros H [(key & Hp & Hk) | (l & Hp & Hl)]; [left; exists key | right; exists l]; (split; [eapply builds_of; eassumption | assumption]).
Qed.
Lemma key_value_list_of p q k v : same p q -> key_value_list prim merge globals q k v -> key_value_list prim merge globals p k v.
Proof. intros H (key & tl & rest & Hp & Hr). exists key, tl, rest. split; [eapply builds_of; eassumption | exact Hr]. Qed.
Lemma entry_self p w k v : strips p w -> entry p k v -> entry w k v.
Proof.
  intros H [(key & Hp & Hk) | (l & Hp & Hl)]; [left; exists key | right; exists l]; (split; [eapply builds_self; eassumption | assumption]).
Qed.
Lemma entry_strips p k v : entry p k v -> exists w, strips p w /\ entry w k v.
Proof.
  intros H. assert (exists w, strips p w) as [w Hw].
  { destruct H as [(key & (args & e & Hs & _) & _) | (l & (args & e & Hs & _) & _)]; eauto. }
  exists w. split; [exact Hw | eapply entry_self; eassumption].
Qed.

Lemma kv_is p k v : item prim merge globals p k v -> entry (VClo (snd (kv message)) 0 [Vals [p]]) k v.
Proof.
  intros [[(key & Hp & Hk) | (l & Hp & Hl)] | Hl]; cbn [snd kv lambda].
  - eapply entry_of; [go ltac:(branch Hp); atom |]. left. exists key. auto.
  - eapply entry_of; [go ltac:(branch Hp); atom |]. right. exists l. auto.
  - pose proof Hl as (key & tl & rest & Hp & _).
    right. exists p. split; [| exact Hl]. eapply builds_of; [branch Hp |]. apply builds_data. reflexivity.
Qed.
Lemma dekv_is p k v : entry p k v -> key_value_list prim merge globals (VClo (snd (dekv message)) 0 [Vals [p]]) k v.
Proof.
  intros [(key & Hp & Hk) | (l & Hp & Hl)]; cbn [snd dekv lambda].
  - eapply key_value_list_of; [go ltac:(branch Hp); apply same_letrec |].
    eexists _, _, _. split; [| split].
    + apply builds_data. reflexivity.
    + eexists. split; [apply builds_data; reflexivity | exact Hk].
    + apply builds_data. reflexivity.
  - eapply key_value_list_of; [go ltac:(branch Hp); atom | exact Hl].
Qed.
Lemma pack_pair_is p k v : entry p k v -> exists key, builds (VClo (snd (pack_pair (native := native))) 0 [Vals [p]]) pair_tag [key; p] /\ is_native key k.
Proof.
  intros H. pose proof (extract_key_is prim merge globals message p k v H) as Hk.
  exists (VNat k). split.
  - eapply builds_of.
    { cbn [snd pack_pair lambda]. apply same_force. eapply strips_of; [entering | exact Hk]. }
    apply builds_data. reflexivity.
  - apply st_plain; [constructor | reflexivity].
Qed.
Lemma block_pair_is p k v : entry p k v -> exists key, builds (VClo (snd (block_pair (native := native))) 0 [Vals [p]]) pair_tag [key; v] /\ is_native key k.
Proof.
  intros H. pose proof (extract_key_is prim merge globals message p k v H) as Hk.
  destruct H as [(key & Hp & Hkey) | (l & Hp & key & tl & rest & Hl & Hb & Ht)]; cbn [snd block_pair lambda].
  - exists key. split; [| exact Hkey]. eapply builds_of; [go ltac:(branch Hp); atom | exact Hp].
  - exists (VNat k). split; [| apply st_plain; [constructor | reflexivity]].
    eapply builds_of.
    { go ltac:(branch Hp). go ltac:(branch Hl). go ltac:(branch Ht). apply same_force. eapply strips_of; [entering | exact Hk]. }
    apply builds_data. reflexivity.
Qed.

(** ** BLOCK *)
Section Items.
Variable e' : Spec.env (native := native).
Variable rec_ : list form.
Hypothesis Hrec : nth_error rec_ 0 = Some (kv_items (native := native)).
Let self : value := closure (Rec rec_ :: e') kv_items.
Definition itemising (l : value) : value := VClo (snd (kv_items (native := native))) 0 (Vals [l; self] :: Rec rec_ :: e').
Lemma itemising_is l ps : is_list l ps -> forall kvs, items prim merge globals ps kvs ->
  exists qs, is_list (itemising l) qs /\ entries prim merge globals qs kvs.
Proof.
  intros (end_ & Hb & He). induction Hb as [l | l h tl ps rest Hl Hb IH]; intros kvs Hk.
  - inversion Hk; subst. exists []. split; [| constructor].
    exists (itemising l). split; [constructor |]. unfold itemising. cbn [snd kv_items lambda].
    eapply builds_of; [go ltac:(branch He); atom | exact He].
  - inversion Hk as [| ? [k v] ? kvs' Hi Hk']; subst. cbn [fst snd] in Hi.
    destruct (IH He kvs' Hk') as (qs & Hq & Hqs).
    destruct (entry_strips _ _ _ (kv_is _ _ _ Hi)) as (wk & Hwk & Hek).
    destruct (list_strips _ _ Hq) as (wt & Hwt & Hlt).
    exists (wk :: qs). split; [| constructor; assumption].
    apply (list_cons _ wk wt); [| exact Hlt].
    unfold itemising at 1. cbn [snd kv_items lambda].
    eapply builds_of.
    { go ltac:(branch Hl). go ltac:(apply same_force; eapply strips_of; [entering | exact Hwk]).
      apply same_force. eapply strips_of; [| exact Hwt].
      eapply same_call_rec; [reflexivity | reflexivity | cbn; lia | reflexivity]. }
    apply builds_data. reflexivity.
Qed.
End Items.
Lemma block_is l ps kvs : is_list l ps -> items prim merge globals ps kvs ->
  exists es qs, is_block (VClo (snd (block zero)) 0 [Vals [l]]) es /\ is_list es qs /\ entries prim merge globals qs kvs.
Proof.
  intros Hl Hk.
  set (fs := [kv_items; value_ (app (lref 0) [lref 2; lref 0])] : list form).
  destruct (itemising_is [Vals [l]] fs l ps Hl kvs Hk) as (qs & Hq & Hqs).
  set (es := VClo (app (lref 0) [lref 2; lref 0]) 0 [Rec fs; Vals [l]]).
  assert (Hs : same es (itemising [Vals [l]] fs l)).
  { eapply same_call_rec; [reflexivity | reflexivity | cbn; lia | reflexivity]. }
  exists es, qs. split; [| split; [| exact Hqs]].
  - eexists. eapply builds_of; [apply same_letrec |]. apply builds_data. reflexivity.
  - eapply list_of; eassumption.
Qed.

(** ** ELEMENTS *)
Section Mapping.
Variable e' : Spec.env (native := native).
Let rec_ : list form := [map_list message].
Let self : value := closure (Rec rec_ :: e') (map_list message).
Definition mapping (l : value) : value := VClo (snd (map_list message)) 0 (Vals [l; self] :: Rec rec_ :: e').
Lemma mapping_is l ps rest : begins l ps rest -> forall q, same q (mapping l) -> forall kvs, entries prim merge globals ps kvs ->
  exists qs rest', begins q qs rest' /\ same rest' (mapping rest) /\
    Forall2 (fun q kv => key_value_list prim merge globals q (fst kv) (snd kv)) qs kvs.
Proof.
  induction 1 as [l | l h tl ps rest Hl Hb IH]; intros q Hq kvs Hk.
  - inversion Hk; subst. exists [], q. repeat split; [constructor | apply Hq | apply Hq | constructor].
  - inversion Hk as [| ? [k v] ? kvs' Hi Hk']; subst. cbn [fst snd] in Hi.
    set (e1 := Rec [thunk (call ix_dekv [lref 2]); thunk (app (lref 5) [lref 3; lref 5])]
       :: Vals [h; tl] :: Vals [l; self] :: Rec rec_ :: e').
    set (ph := VClo (call ix_dekv [lref 2]) 0 e1 : value).
    set (pt := VClo (app (lref 5) [lref 3; lref 5]) 0 e1 : value).
    assert (Hqb : builds q cons_tag [ph; pt]).
    { eapply builds_of; [eapply same_trans; [exact Hq |] |].
      - unfold mapping. cbn [snd map_list lambda]. go ltac:(branch Hl). apply same_letrec.
      - apply builds_data. reflexivity. }
    destruct (IH pt) with (kvs := kvs') as (qs & rest' & Hqs & Hr & Hf); [| exact Hk' |].
    { eapply same_call_rec; [reflexivity | reflexivity | cbn; lia | reflexivity]. }
    exists (ph :: qs), rest'. split; [econstructor; eassumption |]. split; [exact Hr |].
    constructor; [| exact Hf]. cbn [fst snd].
    eapply key_value_list_of; [entering |]. apply dekv_is. exact Hi.
Qed.
End Mapping.
Lemma elements_is b es ps rest kvs : is_block b es -> begins es ps rest -> entries prim merge globals ps kvs ->
  exists qs rest', begins (VClo (snd (elements message)) 0 [Vals [b]]) qs rest' /\
    Forall2 (fun q kv => key_value_list prim merge globals q (fst kv) (snd kv)) qs kvs /\
    (builds rest nil_tag [] -> builds rest' nil_tag []).
Proof.
  intros (ix & Hb) He Hk.
  destruct (mapping_is [Vals [b]] _ _ _ He (VClo (snd (elements message)) 0 [Vals [b]])) with (kvs := kvs)
    as (qs & rest' & Hq & Hr & Hf); [| exact Hk |].
  { cbn [snd elements lambda]. go ltac:(apply same_letrec). go ltac:(branch Hb).
    eapply same_call_rec; [reflexivity | reflexivity | cbn; lia | reflexivity]. }
  exists qs, rest'. split; [exact Hq |]. split; [exact Hf |].
  intros Hn. eapply builds_of; [exact Hr |]. unfold mapping. cbn [snd map_list lambda].
  eapply builds_of; [go ltac:(branch Hn); atom | exact Hn].
Qed.

(** ** Lists *)
Lemma head_is l h tl : builds l cons_tag [h; tl] -> same (VClo (snd (head (native := native))) 0 [Vals [l]]) h.
Proof. intros H. cbn [snd head lambda]. go ltac:(branch H). atom. Qed.
Lemma tail_is l h tl : builds l cons_tag [h; tl] -> same (VClo (snd (tail (native := native))) 0 [Vals [l]]) tl.
Proof. intros H. cbn [snd tail lambda]. go ltac:(branch H). atom. Qed.
Lemma nilp_true l : builds l nil_tag [] -> is_bool (VClo (snd (nilp (native := native))) 0 [Vals [l]]) true.
Proof. intros H. eapply is_bool_of; [branch H |]. apply builds_data. reflexivity. Qed.
Lemma nilp_false l w : strips l w -> ~ of_kind prim merge globals l nil_tag -> is_bool (VClo (snd (nilp (native := native))) 0 [Vals [l]]) false.
Proof.
  intros Hs Hn. eapply is_bool_of.
  { cbn [snd nilp lambda]. eapply same_fallback; [eapply strips_atom; [reflexivity | exact Hs] |].
    eapply selects_none; [exact Hs |]. intros tag [<- | []]. exact Hn. }
  apply builds_data. reflexivity.
Qed.

(** ** Evaluating whole lists *)
Definition seqing (unbox : syn -> syn -> syn) (self : N) (l : value) : value :=
  VClo (snd (seq_list unbox self)) 0 [Vals [l]].
Lemma seq_list_is unbox self (holds : value -> native -> Prop) :
  nth_error globals (N.to_nat self) = Some (seq_list unbox self) ->
  (forall p n e s then_, holds p n -> same (VClo s 0 e) p ->
     exists r, same (VClo (unbox s then_) 0 e) (VClo then_ 0 (Vals [r] :: e)) /\ is_native r n) ->
  forall l ps, is_list l ps -> forall ns, Forall2 holds ps ns ->
  is_list (seqing unbox self l) (map VNat ns).
Proof.
  intros Hg Hu l ps (end_ & Hb & He). induction Hb as [l | l h tl ps rest Hl Hb IH]; intros ns Hn.
  - inversion Hn; subst. apply list_nil. unfold seqing. cbn [snd seq_list lambda].
    eapply builds_of; [go ltac:(branch He); atom | exact He].
  - inversion Hn as [| ? n ? ns' Hi Hn']; subst.
    destruct (list_strips _ _ (IH He ns' Hn')) as (wt & Hwt & Hlt).
    cbn [map]. apply (list_cons _ _ wt); [| exact Hlt].
    unfold seqing at 1. cbn [snd seq_list lambda].
    destruct (Hu h n [Vals [h; tl]; Vals [l]] (local 0)
       (force (local 0) (force (call self [lref 3]) (data cons_tag [lref 1; lref 0]))) Hi)
      as (r & Hr & Hrn); [atom |].
    eapply builds_of.
    { go ltac:(branch Hl). go ltac:(exact Hr).
      go ltac:(apply same_force; eapply strips_atom; [reflexivity | exact Hrn]).
      apply same_force. eapply strips_of; [| exact Hwt].
      eapply same_call; [exact Hg | reflexivity | cbn; lia | reflexivity]. }
    apply builds_data. reflexivity.
Qed.
Lemma seq_num_is l ps ns : is_list l ps -> Forall2 (fun p n => boxes number_tag p n \/ is_native p n) ps ns ->
  is_list (VClo (snd (seq_num_list (native := native))) 0 [Vals [l]]) (map VNat ns).
Proof.
  intros Hl Hn. refine (seq_list_is _ _ _ _ _ l ps Hl ns Hn); [apply Hinst; member |].
  clear. intros p n e s then_ [(raw & Hbox & Hraw) | Hraw] Hs.
  - exists raw. split; [| exact Hraw].
    apply (same_case prim merge globals s [(number_tag, then_)] (Some then_) e number_tag [raw]); [eapply builds_of; [exact Hs | exact Hbox] | reflexivity].
  - exists (VNat n). split; [| apply st_plain; [constructor | reflexivity]].
    eapply same_fallback; [eapply strips_of; [exact Hs | exact Hraw] | reflexivity].
Qed.
Lemma seq_str_is l ps ns : is_list l ps -> Forall2 (boxes string_tag) ps ns ->
  is_list (VClo (snd (seq_str_list (native := native))) 0 [Vals [l]]) (map VNat ns).
Proof.
  intros Hl Hn. refine (seq_list_is _ _ _ _ _ l ps Hl ns Hn); [apply Hinst; member |].
  clear. intros p n e s then_ (raw & Hbox & Hraw) Hs.
  exists raw. split; [| exact Hraw].
  apply (same_case prim merge globals s [(string_tag, then_)] None e string_tag [raw]); [eapply builds_of; [exact Hs | exact Hbox] | reflexivity].
Qed.
Lemma seq_spine_is l ps : is_list l ps -> builds (VClo (snd (seq_spine (native := native))) 0 [Vals [l]]) nil_tag [].
Proof.
  intros (end_ & Hb & He). induction Hb as [l | l h tl ps rest Hl Hb IH]; cbn [snd seq_spine lambda] in *.
  - eapply builds_of; [go ltac:(branch He); atom | exact He].
  - destruct (builds_strips prim merge globals _ _ _ (IH He)) as (w & Hw & Hwb).
    eapply builds_of; [| exact Hwb]. go ltac:(branch Hl).
    go ltac:(apply same_force; eapply strips_of; [entering | exact Hw]). atom.
Qed.
End Data.
