(** The analysis of an expression. *)
From Coq Require Import String List Bool Arith Lia Relations.
From Verif.Basics Require Import Model.
From Verif.Scope Require Import Model.
From Verif.Demand Require Import Model Spec Facts Exact.
Import ListNotations.
Open Scope nat_scope.

(** The annotations of a let say what they should. *)
Definition exact_let (bs : list (binding expr)) (body : expr) : Prop :=
  forall i b, nth_error bs i = Some b ->
    d_card (b_demand b) <> CUnknown /\
    (d_card (b_demand b) <> CAbsent <-> needed bs body i) /\
    (d_rec (b_demand b) = true <-> cyclic bs i) /\
    (d_card (b_demand b) = CAtMostOnce ->
      (forall keys xs, body <> ENode (KBlock keys) xs) /\ forall j, cyclic bs j -> i <> j /\ ~ clos_trans nat (refers bs) j i).
(** A signature says which parameters a function may look at. *)
Definition exact_signature (ds : list Basics.Model.demand) (ps : list string) (body : expr) : Prop :=
  List.length ds = List.length ps /\ forall k d, nth_error ds k = Some d -> (d_card d <> CAbsent <-> uses body 0 k).

Section Main.
Variable intrinsics : table.
Hypothesis proper : Forall (fun e => Forall proper_entry (snd e)) intrinsics.
Notation analyse := (analyse intrinsics).

Record right (e : expr) (r : answer) (sig : option (list Basics.Model.demand)) : Prop := {
  r_erase : erase (a_expr r) = erase e;
  r_good : good (a_env r);
  r_uses : forall s b, get (a_env r) (s, b) <> None <-> uses e s b;
  r_lets : forall bs body t, part (ELet bs body t) (a_expr r) -> exact_let bs body;
  r_sig : forall ds, sig = Some ds -> exists ps body, function (a_expr r) ps body /\ exact_signature ds ps body;
  r_table : forall n ds, In (n, ds) (a_table r) -> exists bs body t b ps fbody,
    part (ELet bs body t) (a_expr r) /\ In b bs /\ b_name b = n /\ function (b_expr b) ps fbody /\ exact_signature ds ps fbody }.

Lemma part_let_node e k xs : part e (ENode k xs) -> (exists bs body t, e = ELet bs body t) -> exists x, composite k /\ In x xs /\ part e x.
Proof. intros H (bs & body & t & ->). inversion H; subst. eauto. Qed.
Lemma signature_exact ps body : forall r, good (a_env r) -> (forall s b, get (a_env r) (s, b) <> None <-> uses body s b) ->
  exact_signature (signature (List.length ps) (a_env r)) ps body.
Proof.
  intros r Hg Hu. split; [apply signature_length |]. intros k d Hk.
  assert (Hl : k < List.length ps) by (rewrite <- (signature_length (List.length ps) (a_env r)); apply nth_error_Some; congruence).
  apply (nth_some _ _ demand_absent) in Hk. rewrite signature_nth in Hk by exact Hl. subst. rewrite get_or_absent_some by exact Hg. apply Hu.
Qed.

Lemma all_right {A} (f : A -> expr) l : Forall (fun x => exists r sig, analyse (f x) = Some (r, sig) /\ right (f x) r sig) l ->
  exists rs, all_some (map (fun x => analyse (f x)) l) = Some rs /\ Forall2 (fun x p => right (f x) (fst p) (snd p)) l rs.
Proof.
  induction 1 as [|x l (r & sig & E & Hr) _ (rs & E2 & IH)]; cbn; [exists []; auto |]. rewrite E, E2. exists ((r, sig) :: rs). split; [reflexivity | constructor; assumption].
Qed.
Lemma forall2_map_fst {A B C} (R : A -> B -> Prop) (l : list A) (m : list (B * C)) : Forall2 (fun x p => R x (fst p)) l m -> Forall2 R l (map fst m).
Proof. induction 1; constructor; auto. Qed.
Lemma tables_in n ds rs : In (n, ds) (tables rs) <-> exists r, In r rs /\ In (n, ds) (a_table r).
Proof.
  unfold tables. rewrite in_flat_map. split; intros (r & H1 & H2); exists r; (split; [apply in_rev in H1 || (rewrite <- in_rev; exact H1) |]); auto.
Qed.

Lemma node_right k xs rs : composite k -> Forall2 (fun x p => right x (fst p) (snd p)) xs rs ->
  good (match k, xs, map fst rs with
        | KApp, f :: _, r :: rs => with_arguments (a_env r) (demands_of intrinsics f) rs
        | KLookup _, _, r :: rs | KMeta, _, r :: rs => gather (a_env r) rs
        | _, _, _ => gather [] (map fst rs)
        end) /\
  forall s b, get (match k, xs, map fst rs with
        | KApp, f :: _, r :: rs => with_arguments (a_env r) (demands_of intrinsics f) rs
        | KLookup _, _, r :: rs | KMeta, _, r :: rs => gather (a_env r) rs
        | _, _, _ => gather [] (map fst rs)
        end) (s, b) <> None <-> uses (ENode k xs) s b.
Proof.
  intros Hk H.
  assert (G0 : Forall (fun r => good (a_env r)) (map fst rs)).
  { clear Hk. induction H; constructor; auto. apply (r_good _ _ _ H). }
  assert (D : forall s b, (exists r, In r (map fst rs) /\ get (a_env r) (s, b) <> None) <-> exists x, In x xs /\ uses x s b).
  { intros s b. clear Hk G0. induction H as [|x p xs rs Hx H IH]; cbn; [split; intros (? & [] & _) |]. split.
    - intros (r & [<- | Hr] & Hg); [exists x; split; [auto | apply (r_uses _ _ _ Hx); exact Hg] |]. destruct (proj1 IH (ex_intro _ r (conj Hr Hg))) as (y & H1 & H2). eauto.
    - intros (y & [<- | Hy] & Hu); [exists (fst p); split; [auto | apply (r_uses _ _ _ Hx); exact Hu] |]. destruct (proj2 IH (ex_intro _ y (conj Hy Hu))) as (r & H1 & H2). eauto. }
  assert (DU : forall s b, k <> KApp -> (exists x, In x xs /\ uses x s b) <-> uses (ENode k xs) s b).
  { intros s b Hn. split; [intros (x & H1 & H2); eapply us_part; eassumption |]. intros Hu. inversion Hu; subst; try contradiction. eauto. }
  assert (P1 : k <> KApp -> good (gather [] (map fst rs)) /\ forall s b, get (gather [] (map fst rs)) (s, b) <> None <-> uses (ENode k xs) s b).
  { intros Hn. split; [apply gather_good; [constructor | exact G0] |]. intros s b. rewrite gather_some, <- DU, <- D by exact Hn. cbn. split; [intros [F | F]; [congruence | exact F] | auto]. }
  assert (P2 : k <> KApp -> forall r rs', map fst rs = r :: rs' -> good (gather (a_env r) rs') /\ forall s b, get (gather (a_env r) rs') (s, b) <> None <-> uses (ENode k xs) s b).
  { intros Hn r rs' E. rewrite E in G0. inversion G0; subst. split; [apply gather_good; assumption |]. intros s b. rewrite gather_some, <- DU, <- D by exact Hn. rewrite E. cbn. split.
    - intros [F | (r' & F1 & F2)]; eauto.
    - intros (r' & [-> | F1] & F2); eauto. }
  destruct k; try (exact (P1 ltac:(discriminate))); try contradiction.
  1, 2: destruct (map fst rs) as [|r rs'] eqn:E; [rewrite <- E in *; exact (P1 ltac:(discriminate)) | exact (P2 ltac:(discriminate) r rs' eq_refl)].
  clear P1 P2 DU D. destruct H as [|f p xs rs Hf H].
  - cbn. split; [constructor |]. intros s b. split; [congruence |]. intros Hu. inversion Hu; subst. congruence.
  - cbn. cbn in G0. inversion G0 as [|? ? G1 G2]; subst.
    destruct (with_arguments_spec (map fst rs) (a_env (fst p)) (demands_of intrinsics f) G1 (demands_of_admissible intrinsics proper f) G2) as (H1 & H2).
    split; [exact H1 |]. intros s b. rewrite H2. split.
    + intros [Hg | (i & r & Hr & Hd & Hg)]; [apply us_called; apply (r_uses _ _ _ Hf); exact Hg |].
      rewrite nth_error_map in Hr. destruct (nth_error rs i) as [q|] eqn:E; [| discriminate]. injection Hr as <-.
      destruct (Forall2_nth' _ _ _ H i q E) as (x & Hx & Hq). eapply us_argument; [exact Hx | apply (demands_of_ignores intrinsics proper f i); exact Hd | apply (r_uses _ _ _ Hq); exact Hg].
    + intros Hu. inversion Hu as [| | | |? ? ? ? Hu'|? ? i x ? ? Hx Hi Hu'|]; subst; [left; apply (r_uses _ _ _ Hf); exact Hu' | | congruence].
      destruct (Forall2_nth _ _ _ H i x Hx) as (q & Hq & Hr). right. exists i, (fst q). split; [rewrite nth_error_map, Hq; reflexivity |].
      split; [apply (demands_of_ignores intrinsics proper f i); exact Hi | apply (r_uses _ _ _ Hr); exact Hu'].
Qed.

Lemma let_right bs body t (rb : answer) (sb : option (list Basics.Model.demand)) rs : right body rb sb ->
  Forall2 (fun b p => right (b_expr b) (fst p) (snd p)) bs rs ->
  exists ds, let_demands (a_expr rb) (a_env rb) (map (fun r => a_env (fst r)) rs) = Some ds /\
    right (ELet bs body t)
      (mkAnswer (ELet (map (fun x => mkBinding (b_name (fst (fst x))) (a_expr (fst (snd (fst x)))) (snd x)) (combine (combine bs rs) ds)) (a_expr rb) t)
        (outward (a_env rb) ds (map (fun r => a_env (fst r)) rs))
        (flat_map (fun x => named (b_name (fst x)) (snd (snd x))) (rev (combine bs rs)) ++ tables (map fst rs) ++ a_table rb)) None.
Proof.
  intros Hb H. set (envs := map (fun r => a_env (fst r)) rs).
  assert (Ge : Forall good envs) by (unfold envs; clear -H; induction H; constructor; auto; apply (r_good _ _ _ H)).
  assert (Ln : List.length bs = List.length rs) by (eapply forall2_length; exact H).
  assert (Le : List.length envs = List.length bs) by (unfold envs; rewrite map_length; lia).
  destruct (let_demands_spec (a_expr rb) (a_env rb) envs (r_good _ _ _ Hb) Ge) as (ds & E & Ld & Hd). rewrite Le in Ld, Hd.
  exists ds. split; [exact E |].
  set (bs' := map (fun x => mkBinding (b_name (fst (fst x))) (a_expr (fst (snd (fst x)))) (snd x)) (combine (combine bs rs) ds)).
  assert (Nb : forall i b' , nth_error bs' i = Some b' -> exists b p d, nth_error bs i = Some b /\ nth_error rs i = Some p /\ nth_error ds i = Some d /\
    right (b_expr b) (fst p) (snd p) /\ b' = mkBinding (b_name b) (a_expr (fst p)) d).
  { intros i b' Hi. unfold bs' in Hi. rewrite nth_error_map in Hi. destruct (nth_error (combine (combine bs rs) ds) i) as [[[b p] d]|] eqn:Ec; [| discriminate].
    injection Hi as <-. exists b, p, d. clear -Ec H. revert i rs ds H Ec. induction bs as [|x bs IH]; intros i rs ds H Ec; [destruct i; discriminate |].
    inversion H as [|? q ? rs' Hq Hrs]; subst. destruct ds as [|d' ds]; [destruct i; discriminate |]. destruct i as [|i]; cbn in *; [injection Ec as -> -> ->; auto |]. exact (IH i rs' ds Hrs Ec). }
  assert (Lb : List.length bs' = List.length bs) by (unfold bs'; rewrite map_length, !combine_length; lia).
  assert (Eb : map erase_b bs' = map erase_b bs).
  { apply nth_ext with (d := erase_b (mkBinding ""%string (EVar (Free ""%string)) default_demand)) (d' := erase_b (mkBinding ""%string (EVar (Free ""%string)) default_demand)).
    - rewrite !map_length. exact Lb.
    - intros i Hi. rewrite map_length in Hi. rewrite !map_nth. destruct (nth_error bs' i) as [b'|] eqn:Ei; [| apply nth_error_None in Ei; lia].
      rewrite (nth_some _ _ _ _ Ei). destruct (Nb i b' Ei) as (b & p & d & H1 & _ & _ & Hr & ->). rewrite (nth_some _ _ _ _ H1). unfold erase_b. cbn. rewrite (r_erase _ _ _ Hr). reflexivity. }
  assert (Ee : erase (ELet bs' (a_expr rb) t) = erase (ELet bs body t)).
  { change (ELet (map erase_b bs') (erase (a_expr rb)) t = ELet (map erase_b bs) (erase body) t). rewrite Eb, (r_erase _ _ _ Hb). reflexivity. }
  assert (Ne : forall i b, nth_error bs i = Some b -> forall s v, get (nth i envs []) (s, v) <> None <-> uses (b_expr b) s v).
  { intros i b Hi s v. destruct (Forall2_nth _ _ _ H i b Hi) as (p & Hp & Hr). unfold envs.
    rewrite (nth_some _ i [] (a_env (fst p))) by (rewrite nth_error_map, Hp; reflexivity). apply (r_uses _ _ _ Hr). }
  assert (Nl : forall i j, link envs i j <-> refers bs i j).
  { intros i j. unfold link, refers. rewrite Le. split.
    - intros (Hi & Hj & Hg). split; [exact Hj |]. destruct (nth_error bs i) as [b|] eqn:Ei; [| apply nth_error_None in Ei; lia]. exists b. split; [reflexivity |]. apply (Ne i b Ei). exact Hg.
    - intros (Hj & b & Hi & Hu). split; [apply nth_error_Some; congruence |]. split; [exact Hj |]. apply (Ne i b Hi). exact Hu. }
  assert (Nr : forall i, reached (a_env rb) envs i <-> needed bs body i).
  { intros i. split.
    - induction 1 as [i Hi Hg | j i _ IH Hl].
      + apply nd_body; [lia |]. apply (r_uses _ _ _ Hb). exact Hg.
      + apply Nl in Hl. destruct Hl as (Hi & b & Hj & Hu). eapply nd_definition; eassumption.
    - intros Hn. assert (K : forall bs0 body0 k, needed bs0 body0 k -> bs0 = bs -> body0 = body -> reached (a_env rb) envs k).
      { clear Hn. induction 1 as [bs0 body0 k Hk Hu | bs0 body0 j d k _ IH Hj Hk Hu]; intros -> ->.
        - apply re_body; [lia |]. apply (r_uses _ _ _ Hb). exact Hu.
        - eapply re_step; [apply IH; reflexivity |]. apply Nl. split; [exact Hk | eauto]. }
      eapply K; eauto. }
  assert (Ct : forall i j, clos_trans nat (link envs) i j <-> clos_trans nat (refers bs) i j).
  { intros i j. split; intros Hc; induction Hc as [x y Hc | x y z _ H1 _ H2]; try (eapply t_trans; eassumption); apply t_step, Nl; exact Hc. }
  assert (Nr' : forall i, needed bs' (a_expr rb) i <-> needed bs body i).
  { assert (K : forall bs1 body1 bs2 body2, map erase_b bs1 = map erase_b bs2 -> erase body1 = erase body2 -> forall i, needed bs1 body1 i -> needed bs2 body2 i).
    { intros bs1 body1 bs2 body2 E1 E2 i Hn. revert bs2 body2 E1 E2. induction Hn as [bs1 body1 i Hi Hu | bs1 body1 j d i _ IH Hj Hi Hu]; intros bs2 body2 E1 E2.
      - apply nd_body; [apply (f_equal (@List.length _)) in E1; rewrite !map_length in E1; lia | eapply uses_erase; [exact Hu | symmetry; exact E2]].
      - destruct (map_nth_error' erase_b bs1 bs2 j d (eq_sym E1) Hj) as (d' & H1 & H2). unfold erase_b in H2. injection H2 as _ H2.
        eapply nd_definition; [apply IH; assumption | exact H1 | apply (f_equal (@List.length _)) in E1; rewrite !map_length in E1; lia | eapply uses_erase; [exact Hu | exact H2]]. }
    intros i. split; apply K; auto; [apply (r_erase _ _ _ Hb) | symmetry; apply (r_erase _ _ _ Hb)]. }
  assert (Rf' : forall i j, refers bs' i j <-> refers bs i j).
  { assert (K : forall bs1 bs2, map erase_b bs1 = map erase_b bs2 -> forall i j, refers bs1 i j -> refers bs2 i j).
    { intros bs1 bs2 E1 i j (Hj & d & Hd' & Hu). split; [apply (f_equal (@List.length _)) in E1; rewrite !map_length in E1; lia |].
      destruct (map_nth_error' erase_b bs1 bs2 i d (eq_sym E1) Hd') as (d' & H1 & H2). unfold erase_b in H2. injection H2 as _ H2. exists d'. split; [exact H1 | eapply uses_erase; [exact Hu | exact H2]]. }
    intros i j. split; apply K; auto. }
  assert (Ct' : forall i j, clos_trans nat (refers bs') i j <-> clos_trans nat (refers bs) i j).
  { intros i j. split; intros Hc; induction Hc as [x y Hc | x y z _ H1 _ H2]; try (eapply t_trans; eassumption); apply t_step, Rf'; exact Hc. }
  assert (Hds : forall i d, nth_error ds i = Some d -> nth i ds demand_absent = d) by (intros i d Hi; apply nth_some; exact Hi).
  destruct (outward_spec ds (a_env rb) envs (r_good _ _ _ Hb) Ge) as (O1 & O2); [lia |].
  constructor; cbn [a_expr a_env a_table].
  - exact Ee.
  - exact O1.
  - intros s v. rewrite O2. split.
    + intros [Hg | (i & d & Hi & Hc & Hg)]; [apply us_body; apply (r_uses _ _ _ Hb); exact Hg |].
      assert (Hl : i < List.length bs) by (rewrite <- Ld; apply nth_error_Some; congruence).
      destruct (nth_error bs i) as [b|] eqn:Ei; [| apply nth_error_None in Ei; lia].
      eapply us_definition; [| exact Ei | apply (Ne i b Ei); exact Hg]. apply Nr. destruct (Hd i Hl) as (_ & H2 & _). apply H2.
      rewrite (Hds i d Hi). unfold counts in Hc. destruct (d_card d); discriminate.
    + intros Hu. inversion Hu as [|? ? ? ? ? Hu'|? ? ? i d ? ? Hn Hi Hu'| | | |]; subst; [left; apply (r_uses _ _ _ Hb); exact Hu' |].
      right. assert (Hl : i < List.length bs) by (apply nth_error_Some; congruence).
      destruct (nth_error ds i) as [dd|] eqn:Edd; [| apply nth_error_None in Edd; lia]. exists i, dd. split; [exact Edd |]. split; [| apply (Ne i d Hi); exact Hu'].
      destruct (Hd i Hl) as (H1 & H2 & _). rewrite (Hds i dd Edd) in H1, H2. apply Nr in Hn. apply H2 in Hn. unfold counts. destruct (d_card dd); congruence.
  - intros bs0 body0 t0 Hp. inversion Hp as [| ? ? ? ? Hp' | ? ? b' ? ? Hin Hp' | | ]; subst.
    + intros i b' Hi. destruct (Nb i b' Hi) as (b & p & d & H1 & H2 & H3 & Hr & ->). cbn.
      assert (Hl : i < List.length bs) by (apply nth_error_Some; congruence).
      destruct (Hd i Hl) as (D1 & D2 & D3 & D4). rewrite (Hds i d H3) in *. split; [exact D1 |]. split; [rewrite Nr', <- Nr; exact D2 |].
      split; [unfold cyclic; rewrite Ct', <- Ct; exact D3 |]. intros Hc. destruct (D4 Hc) as (D5 & D6). split.
      * intros keys xs F. rewrite F in D5. discriminate.
      * intros j Hj. unfold cyclic in Hj. rewrite Ct', <- Ct in Hj. rewrite Ct', <- Ct. exact (D6 j Hj).
    + apply (r_lets _ _ _ Hb _ _ _ Hp').
    + apply In_nth_error in Hin. destruct Hin as (i & Hi). destruct (Nb i b' Hi) as (b & p & d & H1 & H2 & H3 & Hr & ->). apply (r_lets _ _ _ Hr _ _ _ Hp').
  - discriminate.
  - intros n sig Hin. apply in_app_or in Hin. destruct Hin as [Hin | Hin]; [| apply in_app_or in Hin; destruct Hin as [Hin | Hin]].
    + apply in_flat_map in Hin. destruct Hin as ([b p] & Hin & Hs). apply in_rev in Hin. cbn in Hs. destruct (snd p) as [l|] eqn:Esig; [| destruct Hs].
      destruct Hs as [[= <- <-] | []]. apply In_nth_error in Hin. destruct Hin as (i & Hi).
      assert (Hbp : nth_error bs i = Some b /\ nth_error rs i = Some p /\ right (b_expr b) (fst p) (snd p)).
      { clear -Hi H. revert i rs H Hi. induction bs as [|x bs IH]; intros i rs H Hi; [destruct i; discriminate |]. inversion H as [|? q ? rs' Hq Hrs]; subst.
        destruct i as [|i]; cbn in *; [injection Hi as -> ->; auto | exact (IH i rs' Hrs Hi)]. }
      destruct Hbp as (H1 & H2 & Hr). destruct (r_sig _ _ _ Hr l Esig) as (ps & fb & Hf & Hx).
      assert (Hl : i < List.length bs') by (rewrite Lb; apply nth_error_Some; congruence).
      destruct (nth_error bs' i) as [b'|] eqn:Eb'; [| apply nth_error_None in Eb'; lia].
      destruct (Nb i b' Eb') as (b2 & p2 & d & G1 & G2 & G3 & _ & ->). rewrite H1 in G1. injection G1 as <-. rewrite H2 in G2. injection G2 as <-.
      exists bs', (a_expr rb), t, (mkBinding (b_name b) (a_expr (fst p)) d), ps, fb.
      split; [apply pt_self |]. split; [eapply nth_error_In; exact Eb' |]. split; [reflexivity |]. split; [exact Hf | exact Hx].
    + apply tables_in in Hin. destruct Hin as (r & Hr & Hin). apply in_map_iff in Hr. destruct Hr as (p & <- & Hp). apply In_nth_error in Hp. destruct Hp as (i & Hp).
      destruct (Forall2_nth' _ _ _ H i p Hp) as (b & Hb' & Hr). destruct (r_table _ _ _ Hr n sig Hin) as (bs0 & body0 & t0 & b0 & ps & fb & P1 & P2).
      assert (Hl : i < List.length bs') by (rewrite Lb; apply nth_error_Some; congruence).
      destruct (nth_error bs' i) as [b'|] eqn:Eb'; [| apply nth_error_None in Eb'; lia].
      destruct (Nb i b' Eb') as (b2 & p2 & d & G1 & G2 & G3 & _ & ->). rewrite Hp in G2. injection G2 as <-.
      exists bs0, body0, t0, b0, ps, fb. split; [| exact P2]. eapply pt_definition; [eapply nth_error_In; exact Eb' | exact P1].
    + destruct (r_table _ _ _ Hb n sig Hin) as (bs0 & body0 & t0 & b0 & ps & fb & P1 & P2). exists bs0, body0, t0, b0, ps, fb. split; [apply pt_body; exact P1 | exact P2].
Qed.

Theorem analyse_right e : exists r sig, analyse e = Some (r, sig) /\ right e r sig.
Proof.
  induction e as [v|bs body t Hbs (rb & sb & Eb & Hb)|i ps body (rb & sb & Eb & Hb)|k xs Hxs] using expr_nested.
  - eexists _, _. split; [reflexivity |]. constructor; cbn [a_expr a_env a_table]; [reflexivity | apply leaf_good | | intros ? ? ? Hp; inversion Hp | discriminate | intros ? ? []].
    intros s b. destruct v as [n|s' b' n]; cbn; [split; [congruence | intros Hu; inversion Hu] |].
    destruct (key_eqb (s', b') (s, b)) eqn:E.
    + apply key_eqb_spec in E. injection E as -> ->. split; [intros _; constructor | discriminate].
    + split; [congruence |]. intros Hu. inversion Hu; subst. rewrite (proj2 (key_eqb_spec _ _) eq_refl) in E. discriminate.
  - destruct (all_right b_expr bs Hbs) as (rs & Ers & Hrs). destruct (let_right bs body t rb sb rs Hb Hrs) as (ds & Ed & Hr).
    cbn. rewrite Eb, Ers, Ed. eexists _, _. split; [reflexivity | exact Hr].
  - cbn. rewrite Eb. eexists _, _. split; [reflexivity |]. constructor; cbn [a_expr a_env a_table].
    + cbn. rewrite (r_erase _ _ _ Hb). reflexivity.
    + apply unshift_good, (r_good _ _ _ Hb).
    + intros s b. rewrite get_unshift, (r_uses _ _ _ Hb). split; [apply us_function | intros Hu; inversion Hu; subst; assumption].
    + intros bs0 body0 t0 Hp. inversion Hp; subst. eapply (r_lets _ _ _ Hb). eassumption.
    + intros ds [= <-]. exists ps, (a_expr rb). split; [constructor |]. apply signature_exact; [apply (r_good _ _ _ Hb) |].
      intros s b. rewrite (r_uses _ _ _ Hb). apply uses_same. symmetry. apply (r_erase _ _ _ Hb).
    + intros n sig Hin. destruct (r_table _ _ _ Hb n sig Hin) as (bs0 & body0 & t0 & b0 & ps0 & fb & P1 & P2). exists bs0, body0, t0, b0, ps0, fb. split; [apply pt_function; exact P1 | exact P2].
  - destruct (untouched (ENode k xs)) eqn:Eu.
    + cbn [Model.analyse]. rewrite Eu. eexists _, _. split; [reflexivity |].
      assert (Hn : ~ composite k) by (intros F; apply not_untouched with (xs := xs) in F; congruence).
      constructor; cbn [a_expr a_env a_table]; [reflexivity | constructor | | intros ? ? ? Hp; inversion Hp; contradiction | discriminate | intros ? ? []].
      intros s b. split; [intros F; exfalso; apply F; reflexivity |]. intros Hu. inversion Hu; subst; exfalso; apply Hn; assumption || exact Logic.I.
    + assert (Hk : composite k) by (eapply not_untouched; exact Eu). destruct (all_right (fun x => x) xs Hxs) as (rs & Ers & Hrs).
      destruct (node_right k xs rs Hk Hrs) as (N1 & N2). cbn [Model.analyse]. rewrite Eu. change (map analyse xs) with (map (fun x => analyse x) xs). rewrite Ers.
      eexists _, _. split; [reflexivity |]. constructor; cbn [a_expr a_env a_table].
      * cbn. f_equal. clear -Hrs. induction Hrs as [|x p xs rs Hx H IH]; cbn; [reflexivity |]. rewrite (r_erase _ _ _ Hx), IH. reflexivity.
      * exact N1.
      * exact N2.
      * intros bs0 body0 t0 Hp. apply part_let_node in Hp; [| eauto]. destruct Hp as (x & _ & Hx & Hp). rewrite map_map in Hx. apply in_map_iff in Hx. destruct Hx as (p & <- & Hin).
        apply In_nth_error in Hin. destruct Hin as (j & Hj). destruct (Forall2_nth' _ _ _ Hrs j p Hj) as (y & _ & Hr). apply (r_lets _ _ _ Hr _ _ _ Hp).
      * intros ds Hs. destruct k; try discriminate. destruct Hrs as [|x p xs rs Hx H]; [discriminate |]. cbn in Hs. destruct (r_sig _ _ _ Hx ds Hs) as (ps & fb & Hf & Hx'). exists ps, fb. split; [apply fn_meta; exact Hf | exact Hx'].
      * intros n sig Hin. apply tables_in in Hin. destruct Hin as (r & Hr & Hin). pose proof Hr as Hr0. apply in_map_iff in Hr. destruct Hr as (p & <- & Hp). apply In_nth_error in Hp. destruct Hp as (j & Hp).
        destruct (Forall2_nth' _ _ _ Hrs j p Hp) as (b & _ & Hr). destruct (r_table _ _ _ Hr n sig Hin) as (bs0 & body0 & t0 & b0 & ps & fb & P1 & P2).
        exists bs0, body0, t0, b0, ps, fb. split; [| exact P2]. eapply pt_part; [exact Hk | apply in_map; exact Hr0 | exact P1].
Qed.
End Main.
