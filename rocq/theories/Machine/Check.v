(** Running concrete programs, for the examples: a checker for the conditions of the theorems. *)
From Coq Require Import List Bool Arith NArith Lia.
From Verif.Bytecode Require Import Model Spec.
From Verif.Machine Require Import Model Spec Name Rel Chase Sim Steps Clean Correct.
Import ListNotations.
Open Scope nat_scope.

Section Check.
Context {native : Type}.
Notation mval := (mval (native := native)).
Notation heap := (heap (native := native)).
Notation state := (state (native := native)).
Notation view := (view (native := native)).
Variable prim : N -> list native -> prim_result (native := native).
Variable is_symbol : native -> bool.
Variable symbols_equal : native -> native -> bool.
Variable merge : N.
Notation step := (step prim is_symbol symbols_equal merge).
Notation run := (run prim is_symbol symbols_equal merge).
Notation stops := (stops prim is_symbol symbols_equal merge).
Notation stops_properly := (stops_properly prim is_symbol symbols_equal merge).
Notation visits := (visits prim is_symbol symbols_equal merge).
Notation looks := (looks prim is_symbol symbols_equal merge).
Notation looks_some := (looks_some prim is_symbol symbols_equal merge).
Notation ordinary := (ordinary prim is_symbol symbols_equal merge).

Definition holeb (v : mval) : bool := match v with MClo SBlackHole 0 false _ => true | _ => false end.
Lemma holeb_spec v : is_hole v -> holeb v = true.
Proof. intros [e ->]. reflexivity. Qed.
Definition wideb (s : state) : bool :=
  match s with
  | mkState (MClo _ a _ _) (KApply args :: _) _ =>
      (length args <? a) && ((length args =? 0) || (16 <? length args) || (16 <? a - length args))
  | _ => false
  end.
Definition unreadyb (s : state) : bool :=
  match s with
  | mkState (MClo (SBif _ args) 0 _ e) _ h =>
      match resolve_refs h e args with
      | Some vs => existsb (fun v => match native_from (chase_fuel h) h v with None => true | _ => false end) vs
      | None => false
      end
  | _ => false
  end.
Definition copiesb (s : state) : bool :=
  match step s with
  | Next s' =>
      existsb (fun a => existsb holeb (array (s_heap s') a)) (seq (length (s_heap s)) (length (s_heap s') - length (s_heap s))) ||
      existsb (fun k => match k with KApply args => existsb holeb args | _ => false end) (s_stack s')
  | _ => false
  end.
Definition ordinaryb (s : state) : bool := negb (wideb s) && negb (unreadyb s) && negb (copiesb s).

Lemma ordinaryb_spec s : ordinaryb s = true -> ordinary s.
Proof.
  unfold ordinaryb. rewrite !andb_true_iff, !negb_true_iff. intros [[Hw Hu] Hc]. split; [| split].
  - intros (c & a & u & e & args & K & h & -> & Hl & Hor). cbn [wideb] in Hw.
    rewrite (proj2 (Nat.ltb_lt _ _) Hl) in Hw. cbn [andb] in Hw. rewrite !orb_false_iff in Hw.
    destruct Hw as [[H1 H2] H3]. destruct Hor as [-> | [H | H]]; [discriminate | |].
    + apply Nat.ltb_ge in H2. lia.
    + apply Nat.ltb_ge in H3. lia.
  - intros (i & args & u & e & K & h & vs & v & -> & Hr & Hin & Hno). cbn [unreadyb] in Hu. rewrite Hr in Hu.
    assert (existsb (fun v => match native_from (chase_fuel h) h v with None => true | _ => false end) vs = true); [| congruence].
    apply existsb_exists. exists v. split; [exact Hin |].
    destruct (native_from (chase_fuel h) h v) as [n|] eqn:E; [| reflexivity].
    destruct (Hno n). apply chase_complete. exact E.
  - intros (s' & Hs & Hor). unfold copiesb in Hc. rewrite Hs in Hc. apply orb_false_iff in Hc. destruct Hc as [H1 H2].
    destruct Hor as [(a & v & Ha & Hin & Hv) | (args & v & Hin & Hv & Hh)].
    + assert (existsb (fun a => existsb holeb (array (s_heap s') a)) (seq (length (s_heap s)) (length (s_heap s') - length (s_heap s))) = true); [| congruence].
      apply existsb_exists. exists a. split.
      * apply in_seq. split; [exact Ha |]. destruct (Nat.lt_ge_cases a (length (s_heap s'))) as [H|H]; [lia |].
        unfold array in Hin. rewrite nth_overflow in Hin by exact H. destruct Hin.
      * apply existsb_exists. exists v. split; [exact Hin | apply holeb_spec, Hv].
    + assert (existsb (fun k => match k with KApply args => existsb holeb args | _ => false end) (s_stack s') = true); [| congruence].
      apply existsb_exists. exists (KApply args). split; [exact Hin |]. apply existsb_exists. exists v.
      split; [exact Hv | apply holeb_spec, Hh].
Qed.

Definition properb (s : state) : bool :=
  match s with
  | mkState (MClo (SBif _ args) 0 _ e) _ h =>
      match resolve_refs h e args with
      | Some vs => forallb (fun v => negb (finds_function (chase_fuel h) h v)) vs
      | None => true
      end
  | mkState cur (KFusedRight _ first_op _ :: _) h =>
      negb (finds_function 0 h first_op) && negb (finds_function 0 h cur)
  | _ => true
  end.
Lemma properb_spec s : properb s = true -> no_function_operand s.
Proof.
  destruct s as [cur K h]. intros H.
  assert (Hk : (match K with
                | KFusedRight _ first_op _ :: _ => negb (finds_function 0 h first_op) && negb (finds_function 0 h cur)
                | _ => true end = true ->
               match K with
               | KFusedRight _ first_op _ :: _ => finds_function 0 h first_op = false /\ finds_function 0 h cur = false
               | _ => True end)).
  { destruct K as [|[] K]; try exact (fun _ => I). rewrite andb_true_iff, !negb_true_iff. exact (fun x => x). }
  destruct cur as [n | c [|a] u e]; try exact (Hk H); [| destruct c; exact (Hk H)].
  destruct c; try exact (Hk H). cbn [properb no_function_operand] in *. intros vs Hvs. rewrite Hvs in H.
  apply Forall_forall. intros v Hv. rewrite forallb_forall in H. apply negb_true_iff. apply H, Hv.
Qed.

(** Running with all the conditions checked. *)
Fixpoint exec (fuel : nat) (s : state) : option state :=
  if ordinaryb s && properb s then
    match step s with
    | Stop s' => Some s'
    | Fail _ => None
    | Next s' => match fuel with O => None | S fuel => exec fuel s' end
    end
  else None.
Lemma exec_spec fuel : forall s s', exec fuel s = Some s' ->
  stops_properly s s' /\ forall t, visits s t -> ordinary t.
Proof.
  assert (Hall : forall fuel s s', exec fuel s = Some s' -> run s (Stop s') /\ forall t, visits s t -> ordinary t /\ no_function_operand t).
  { clear fuel. induction fuel as [|fuel IH]; intros s s'; cbn [exec]; destruct (ordinaryb s && properb s) eqn:Ec; try discriminate;
      apply andb_true_iff in Ec; destruct Ec as [Eo Ep]; apply ordinaryb_spec in Eo; apply properb_spec in Ep;
      destruct (step s) as [s1 | s1 | e] eqn:Es; try discriminate.
    - intros [= ->]. split; [constructor; exact Es |]. intros t Ht. inversion Ht; subst; [auto | congruence].
    - intros H. destruct (IH _ _ H) as [H1 H2]. split; [eapply run_next; eassumption |].
      intros t Ht. inversion Ht as [ | ? s2 ? Hs2 Hv2]; subst; [auto |]. apply H2. congruence.
    - intros [= ->]. split; [constructor; exact Es |]. intros t Ht. inversion Ht; subst; [auto | congruence]. }
  intros s s' H. destruct (Hall _ _ _ H) as [H1 H2]. split; [split; [exact H1 |] |]; intros t Ht; apply H2, Ht.
Qed.

(** Rendering a view, with all the conditions checked. *)
Section Show.
Variable native_eqb : native -> native -> bool.
Hypothesis native_eqb_spec : forall a b, native_eqb a b = true -> a = b.
Variable fuel : nat.
Fixpoint show (vw : view) (h : heap) (m : mval) {struct vw} : option heap :=
  match vw with
  | Unseen => Some h
  | SeenNative n =>
      match exec fuel (mkState m [] h) with
      | Some (mkState (MNat n') [] h') => if native_eqb n n' then Some h' else None
      | _ => None
      end
  | SeenFunction a =>
      match exec fuel (mkState m [] h) with
      | Some (mkState (MClo _ a' _ _) [] h') => if (0 <? a) && (a =? a') then Some h' else None
      | _ => None
      end
  | SeenData tag vws =>
      match exec fuel (mkState m [] h) with
      | Some (mkState (MClo (SCons tag' args) 0 _ e) [] h') =>
          if (tag =? tag')%N then
            match resolve_refs h' e args with
            | Some ms =>
                (fix shows (vws : list view) (h : heap) (ms : list mval) : option heap :=
                   match vws, ms with
                   | [], [] => Some h
                   | vw :: vws, m :: ms => match show vw h m with Some h => shows vws h ms | None => None end
                   | _, _ => None
                   end) vws h' ms
            | None => None
            end
          else None
      | _ => None
      end
  end.

Scheme renders_mind2 := Minimality for Spec.renders Sort Prop
  with renders_all_mind2 := Minimality for Spec.renders_all Sort Prop.
Combined Scheme renders_mutual2 from renders_mind2, renders_all_mind2.
Lemma stops_unique s s1 s2 : stops s s1 -> stops s s2 -> s1 = s2.
Proof. intros H1 H2. pose proof (run_unique prim is_symbol symbols_equal merge _ _ H1 _ H2) as H. injection H as ->. reflexivity. Qed.
Lemma renders_unique :
  (forall h m vw h1, renders stops h m vw h1 -> forall h2, renders stops h m vw h2 -> h1 = h2) /\
  (forall h ms vws h1, renders_all stops h ms vws h1 -> forall h2, renders_all stops h ms vws h2 -> h1 = h2).
Proof.
  apply renders_mutual2.
  - intros h m h2 H. inversion H; reflexivity.
  - intros h m n h' Hs h2 H. inversion H as [ | ? ? ? ? Hs2 | | ]; subst.
    pose proof (stops_unique _ _ _ Hs Hs2) as E. injection E as ->. reflexivity.
  - intros h m c a u e h' Hs Ha h2 H. inversion H as [ | | ? ? ? ? ? ? ? Hs2 | ]; subst.
    pose proof (stops_unique _ _ _ Hs Hs2) as E. injection E as _ _ _ ->. reflexivity.
  - intros h m tag args u e ms vws h' h'' Hs Hr _ IH h2 H. inversion H as [ | | | ? ? ? ? ? ? ms2 ? ? ? Hs2 Hr2 Hall]; subst.
    pose proof (stops_unique _ _ _ Hs Hs2) as E. injection E as <- <- <- <-.
    apply IH. assert (ms2 = ms) as -> by congruence. exact Hall.
  - intros h h2 H. inversion H; reflexivity.
  - intros h m ms v vs h' h'' _ IH1 _ IH2 h2 H. inversion H as [ | ? ? ? ? ? h3 ? H1 H2]; subst.
    rewrite (IH1 _ H1) in *. apply IH2. exact H2.
Qed.
Lemma looks_only_here h m vw t : (forall tag vws, vw <> SeenData tag vws) -> looks h m vw t -> visits (mkState m [] h) t.
Proof. intros Hne H. inversion H; subst; [assumption | destruct (Hne _ _ eq_refl)]. Qed.

Lemma renders_weaken :
  (forall h m vw h1, renders stops_properly h m vw h1 -> renders stops h m vw h1) /\
  (forall h ms vws h1, renders_all stops_properly h ms vws h1 -> renders_all stops h ms vws h1).
Proof.
  apply renders_mutual2.
  - intros; constructor.
  - intros h m n h' [H _]. constructor. exact H.
  - intros h m c a u e h' [H _] Ha. econstructor; eassumption.
  - intros h m tag args u e ms vws h' h'' [H _] Hr _ IH. econstructor; eassumption.
  - intros; constructor.
  - intros. econstructor; eassumption.
Qed.

Lemma show_spec : forall vw h m h', show vw h m = Some h' ->
  renders stops_properly h m vw h' /\ forall t, looks h m vw t -> ordinary t.
Proof.
  fix IH 1. intros vw h m h' H. destruct vw as [ | n | a | tag vws]; cbn [show] in H.
  - injection H as <-. split; [constructor |]. intros t Ht. inversion Ht; subst. congruence.
  - destruct (exec fuel (mkState m [] h)) as [[[n' | ? ? ? ?] [|] h1]|] eqn:E; try discriminate.
    destruct (native_eqb n n') eqn:En; [| discriminate]. injection H as <-. apply native_eqb_spec in En. subst n'.
    destruct (exec_spec _ _ _ E) as [H1 H2]. split; [constructor; exact H1 |].
    intros t Ht. apply H2. eapply looks_only_here; [| exact Ht]. discriminate.
  - destruct (exec fuel (mkState m [] h)) as [[[n' | c a' u e] [|] h1]|] eqn:E; try discriminate.
    destruct ((0 <? a) && (a =? a')) eqn:En; [| discriminate]. injection H as <-. apply andb_true_iff in En.
    destruct En as [Ea Eq]. apply Nat.ltb_lt in Ea. apply Nat.eqb_eq in Eq. subst a'.
    destruct (exec_spec _ _ _ E) as [H1 H2]. split; [econstructor; eassumption |].
    intros t Ht. apply H2. eapply looks_only_here; [| exact Ht]. discriminate.
  - destruct (exec fuel (mkState m [] h)) as [[[n' | c a u e] K h1]|] eqn:E; try discriminate.
    destruct c as [ | | tag' args | | | | | | | | | | | ]; try discriminate.
    destruct a; [| discriminate]. destruct K; [| discriminate].
    destruct (N.eqb_spec tag tag') as [<- | _]; [| discriminate].
    destruct (resolve_refs h1 e args) as [ms|] eqn:Er; [| discriminate].
    destruct (exec_spec _ _ _ E) as [H1 H2].
    assert (Hall : forall vws h ms h',
       (fix shows (vws : list view) (h : heap) (ms : list mval) : option heap :=
                   match vws, ms with
                   | [], [] => Some h
                   | vw :: vws, m :: ms => match show vw h m with Some h => shows vws h ms | None => None end
                   | _, _ => None
                   end) vws h ms = Some h' ->
       renders_all stops_properly h ms vws h' /\ forall t, looks_some h ms vws t -> ordinary t).
    { clear - IH. fix IHl 1. intros vws h ms h' H. destruct vws as [|vw vws]; destruct ms as [|m ms]; try discriminate.
      - injection H as <-. split; [constructor |]. intros t Ht. inversion Ht.
      - destruct (show vw h m) as [h1|] eqn:E; [| discriminate].
        destruct (IH vw h m h1 E) as [Ha Hb]. destruct (IHl vws h1 ms h' H) as [Hc Hd].
        split; [econstructor; eassumption |]. intros t Ht. inversion Ht as [ | ? ? ? ? ? h3 ? Hre Hl]; subst; [apply Hb; assumption |].
        apply Hd. assert (h3 = h1) as <-; [| exact Hl].
        eapply (proj1 renders_unique); [exact Hre | apply (proj1 renders_weaken); exact Ha]. }
    destruct (Hall vws h1 ms h' H) as [Ha Hb]. split; [econstructor; eassumption |].
    intros t Ht. inversion Ht as [ | ? ? ? ? u2 e2 ms2 ? h2 ? Hs2 Hr2 Hl]; subst; [apply H2; assumption |].
    apply Hb. destruct H1 as [H1 _]. pose proof (stops_unique _ _ _ H1 Hs2) as Eq. injection Eq as <- <- <- <-.
    assert (ms2 = ms) as -> by congruence. exact Hl.
Qed.
End Show.
End Check.
