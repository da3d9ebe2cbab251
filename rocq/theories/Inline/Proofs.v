(** Proofs about applying inlinable functions. *)
From Coq Require Import Ascii String List Bool Arith Lia Decimal DecimalString DecimalNat DecimalFacts.
From Verif.Scope Require Import Model Spec Proofs Props.
From Verif.Letrec Require Import Proofs.
From Verif.Fuse Require Import Model Spec Proofs.
From Verif.Inline Require Import Model Spec.
Import ListNotations.
Local Open Scope string_scope.
Local Open Scope list_scope.
Local Open Scope nat_scope.

(** ** Fresh names *)
Lemma append_inj_l (p a b : string) : (p ++ a = p ++ b)%string -> a = b.
Proof. induction p as [|c p IH]; cbn; auto. intros H. injection H. auto. Qed.
Lemma string_app_assoc (a b c : string) : ((a ++ b) ++ c = a ++ (b ++ c))%string.
Proof. induction a; cbn; congruence. Qed.
Lemma append_length (a b : string) : String.length (a ++ b) = String.length a + String.length b.
Proof. induction a; cbn; congruence. Qed.
Lemma append_inj_r (s : string) : forall a b, (a ++ s = b ++ s)%string -> a = b.
Proof.
  induction a as [|c a IH]; intros [|d b] H; auto.
  - apply (f_equal String.length) in H. cbn in H. rewrite append_length in H. lia.
  - apply (f_equal String.length) in H. cbn in H. rewrite append_length in H. lia.
  - cbn in H. injection H as -> H. f_equal. apply IH, H.
Qed.
Lemma uint_inj a b : NilEmpty.string_of_uint (Nat.to_uint a) = NilEmpty.string_of_uint (Nat.to_uint b) -> a = b.
Proof.
  intros H. apply (f_equal NilEmpty.uint_of_string) in H. rewrite !NilEmpty.usu in H. injection H as H.
  apply (f_equal Nat.of_uint) in H. rewrite !DecimalNat.Unsigned.of_to in H. exact H.
Qed.
Lemma uint_nonnil n : exists c s, NilEmpty.string_of_uint (Nat.to_uint n) = String c s /\ c <> "_"%char.
Proof.
  assert (H : Nat.to_uint n <> Nil).
  { destruct n as [|n]; [discriminate|]. intros E. apply (f_equal Nat.of_uint) in E. rewrite DecimalNat.Unsigned.of_to in E. discriminate. }
  destruct (Nat.to_uint n); [congruence|..]; cbn; do 2 eexists; (split; [reflexivity|discriminate]).
Qed.
Lemma candidate_inj base a b : candidate base a = candidate base b -> a = b.
Proof.
  unfold candidate. intros H. destruct a as [|a], b as [|b]; auto.
  - exfalso. destruct (uint_nonnil (S b)) as (c & s & E & N). rewrite E in H. cbn in H. injection H as H. congruence.
  - exfalso. destruct (uint_nonnil (S a)) as (c & s & E & N). rewrite E in H. cbn in H. injection H as H. congruence.
  - apply append_inj_l in H. apply append_inj_r in H. apply uint_inj, H.
Qed.
Lemma mem_iff n l : mem n l = true <-> In n l.
Proof.
  unfold mem. rewrite existsb_exists. split; [intros (x & Hx & E); apply String.eqb_eq in E; subst; auto|]. intros H. exists n. rewrite String.eqb_refl. auto.
Qed.
Lemma fresh_from_some fuel : forall base n avoid name, fresh_from fuel base n avoid = Some name -> ~ In name avoid.
Proof.
  induction fuel as [|fuel IH]; intros base n avoid name H; [discriminate|]. cbn [fresh_from] in H. destruct (mem (candidate base n) avoid) eqn:E; eauto.
  injection H as <-. intros K. apply mem_iff in K. congruence.
Qed.
Lemma fresh_from_none fuel : forall base n avoid, fresh_from fuel base n avoid = None -> incl (map (candidate base) (seq n fuel)) avoid.
Proof.
  induction fuel as [|fuel IH]; intros base n avoid H; [intros x []|]. cbn [fresh_from] in H. destruct (mem (candidate base n) avoid) eqn:E; [|discriminate].
  cbn [seq map]. intros x [<-|Hx]; [apply mem_iff, E|]. apply (IH base (S n) avoid H x Hx).
Qed.
Lemma fresh_name_ok base avoid : exists name, fresh_name base avoid = Some name /\ ~ In name avoid.
Proof.
  unfold fresh_name. destruct (fresh_from (S (List.length avoid)) base 0 avoid) as [name|] eqn:E.
  - exists name. split; auto. eapply fresh_from_some; eauto.
  - exfalso. apply fresh_from_none in E. apply NoDup_incl_length in E.
    + rewrite map_length, seq_length in E. lia.
    + apply FinFun.Injective_map_NoDup; [|apply seq_NoDup]. intros a b. apply candidate_inj.
Qed.

(** ** Substitution *)
Lemma iter_succ_var d n : Nat.iter d succ (EVar (Free n)) = EVar (Free n).
Proof. induction d as [|d IH]; auto. change (succ (Nat.iter d succ (EVar (Free n))) = EVar (Free n)). rewrite IH. reflexivity. Qed.
Lemma fv_succ_at e : forall d, free_vars (succ_at d e) = free_vars e.
Proof.
  induction e as [[n|s b n]|bs body t IHbs IHb|i ps body IHb|k xs IHxs] using expr_ind'; intros d; cbn [succ_at free_vars]; auto.
  - destruct (d <=? s); reflexivity.
  - rewrite IHb. f_equal. rewrite !flat_map_concat_map. f_equal. rewrite map_map. apply map_ext_forall. eapply Forall_impl; [|exact IHbs]. cbn. auto.
  - rewrite !flat_map_concat_map. f_equal. rewrite map_map. apply map_ext_forall. eapply Forall_impl; [|exact IHxs]. cbn. auto.
Qed.
Lemma fv_iter_succ d e : free_vars (Nat.iter d succ e) = free_vars e.
Proof. induction d as [|d IH]; auto. change (free_vars (succ (Nat.iter d succ e)) = free_vars e). unfold succ at 1. rewrite fv_succ_at. exact IH. Qed.
Lemma substs_none m e : forall d, (forall n, In n (free_vars e) -> assoc m n = None) -> substs_depth m d e = e.
Proof.
  induction e as [[n|s b n]|bs body t IHbs IHb|i ps body IHb|k xs IHxs] using expr_ind'; intros d H; cbn [substs_depth]; auto.
  - rewrite H by (cbn; auto). reflexivity.
  - cbn [free_vars] in H. f_equal; [|apply IHb; intros; apply H, in_app_iff; auto]. apply map_id_forall. rewrite Forall_forall in *. intros b Hb.
    unfold map_b. rewrite IHbs; auto; [apply mkBinding_eta|]. intros n Hn. apply H, in_app_iff. left. apply in_flat_map. eauto.
  - f_equal. apply IHb. exact H.
  - cbn [free_vars] in H. f_equal. apply map_id_forall. rewrite Forall_forall in *. intros x Hx. apply IHxs; auto. intros n Hn. apply H, in_flat_map. eauto.
Qed.
Lemma substs_compose m1 m2 m3 e : forall d,
  (forall n, In n (free_vars e) -> match assoc m1 n with
     | Some r => exists r3, assoc m3 n = Some r3 /\ forall d, substs_depth m2 d (Nat.iter d succ r) = Nat.iter d succ r3
     | None => assoc m2 n = assoc m3 n end) ->
  substs_depth m2 d (substs_depth m1 d e) = substs_depth m3 d e.
Proof.
  induction e as [[n|s b n]|bs body t IHbs IHb|i ps body IHb|k xs IHxs] using expr_ind'; intros d H; cbn [substs_depth]; auto.
  - specialize (H n (or_introl eq_refl)). destruct (assoc m1 n) as [r|].
    + destruct H as (r3 & -> & H). apply H.
    + cbn [substs_depth]. rewrite H. reflexivity.
  - cbn [free_vars] in H. f_equal; [|apply IHb; intros; apply H, in_app_iff; auto]. rewrite map_map. apply map_ext_forall. rewrite Forall_forall in *. intros b Hb.
    unfold map_b. cbn. f_equal. apply IHbs; auto. intros n Hn. apply H, in_app_iff. left. apply in_flat_map. eauto.
  - f_equal. apply IHb. exact H.
  - cbn [free_vars] in H. f_equal. rewrite map_map. apply map_ext_forall. rewrite Forall_forall in *. intros x Hx. apply IHxs; auto. intros n Hn. apply H, in_flat_map. eauto.
Qed.
Lemma assoc_combine {A} ns : forall (vs : list A) n, List.length ns = List.length vs ->
  assoc (combine ns vs) n = match position ns n with Some i => nth_error vs i | None => None end.
Proof.
  induction ns as [|x ns IH]; intros [|v vs] n L; try discriminate; auto. cbn. destruct (String.eqb_spec x n); auto. injection L as L. rewrite (IH vs n L).
  destruct (position ns n); reflexivity.
Qed.
Lemma instantiate_close ns vs e : List.length ns = List.length vs -> forall d,
  instantiate vs d (close_expr_vars ns d e) = substs_depth (combine ns vs) d e.
Proof.
  intros L. induction e as [[n|s b n]|bs body t IHbs IHb|i ps body IHb|k xs IHxs] using expr_ind'; intros d; cbn [close_expr_vars substs_depth].
  - rewrite assoc_combine by auto. destruct (position ns n) as [i|] eqn:E; [|reflexivity]. cbn [instantiate]. rewrite Nat.eqb_refl.
    destruct (nth_error vs i) as [v|] eqn:Ev; auto. exfalso. apply nth_error_None in Ev. apply position_some in E. assert (i < List.length ns) by (apply nth_error_Some; congruence). lia.
  - destruct (Nat.leb_spec d s); cbn [instantiate].
    + destruct (Nat.eqb_spec (s + 1) d); [lia|]. destruct (Nat.ltb_spec d (s + 1)); [|lia]. replace (s + 1 - 1) with s by lia. reflexivity.
    + destruct (Nat.eqb_spec s d); [lia|]. destruct (Nat.ltb_spec d s); [lia|]. reflexivity.
  - cbn [instantiate]. rewrite IHb, map_map. f_equal. apply map_ext_forall. eapply Forall_impl; [|exact IHbs]. cbn. intros b Hb. unfold map_b. cbn. rewrite Hb. reflexivity.
  - cbn [instantiate]. rewrite IHb. reflexivity.
  - cbn [instantiate]. rewrite map_map. f_equal. apply map_ext_forall. eapply Forall_impl; [|exact IHxs]. cbn. auto.
Qed.
Definition plain_refs (ps : list string) (d : nat) (e : expr) : Prop :=
  every_ref (fun d' v => match v with
    | Bound s b n => s = d' -> exists x, nth_error ps b = Some x /\ n = Some x
    | Free m => ~ In m ps end) d e.
Lemma instantiate_open ps vs e : List.length ps = List.length vs -> NoDup ps -> forall d, plain_refs ps d e ->
  instantiate vs d e = substs_depth (combine ps vs) d (open_expr_vars ps d e).
Proof.
  intros L N d H. rewrite <- instantiate_close by auto. f_equal. symmetry. apply close_open; auto.
Qed.
Lemma close_is_succ ns e : (forall n, In n ns -> ~ In n (free_vars e)) -> forall d, close_expr_vars ns d e = succ_at d e.
Proof.
  induction e as [[n|s b n]|bs body t IHbs IHb|i ps body IHb|k xs IHxs] using expr_ind'; intros H d; cbn [close_expr_vars succ_at]; auto.
  - destruct (position ns n) as [i|] eqn:E; auto. exfalso. apply (H n); [apply position_some in E; eapply nth_error_In; eauto|cbn; auto].
  - cbn [free_vars] in H. f_equal; [|apply IHb; intros n Hn K; apply (H n Hn), in_app_iff; auto]. apply map_ext_forall. rewrite Forall_forall in *. intros b Hb.
    unfold map_b. f_equal. apply IHbs; auto. intros n Hn K. apply (H n Hn), in_app_iff. left. apply in_flat_map. eauto.
  - f_equal. apply IHb, H.
  - cbn [free_vars] in H. f_equal. apply map_ext_forall. rewrite Forall_forall in *. intros x Hx. apply IHxs; auto. intros n Hn K. apply (H n Hn), in_flat_map. eauto.
Qed.

(** ** The plan *)
Definition planned (sh : list (string * expr)) (x y : string * expr) : Prop :=
  fst x = fst y /\ (snd y = snd x \/ exists name, snd y = EVar (Free name) /\ In (name, snd x) sh).
Lemma planned_weaken sh sh' x y : incl sh sh' -> planned sh x y -> planned sh' x y.
Proof. intros I [H1 [H2|(name & H2 & H3)]]; split; auto. right. exists name. auto. Qed.
Lemma forall2_weaken {A B} (R Q : A -> B -> Prop) xs ys : (forall x y, R x y -> Q x y) -> Forall2 R xs ys -> Forall2 Q xs ys.
Proof. intros H F. induction F; constructor; auto. Qed.
Lemma plan_ok occ l : forall avoid, exists m sh, plan occ avoid l = Some (m, sh) /\
  Forall2 (planned sh) l m /\ NoDup (map fst sh) /\ (forall n, In n (map fst sh) -> ~ In n avoid) /\ incl (map snd sh) (map snd l) /\
  (forall p a, In (p, a) l -> duplicable a = false -> 1 < uses occ p -> exists name, In (p, EVar (Free name)) m /\ In (name, a) sh).
Proof.
  induction l as [|[p a] l IH]; intros avoid.
  - exists [], []. cbn. repeat split; auto; try constructor; try tauto. intros x [].
  - cbn [plan]. destruct ((1 <? uses occ p) && negb (duplicable a)) eqn:C.
    + destruct (fresh_name_ok p avoid) as (name & -> & Hn). destruct (IH (name :: avoid)) as (m & sh & -> & H1 & H2 & H3 & H4 & H5).
      exists ((p, EVar (Free name)) :: m), ((name, a) :: sh). split; auto. split; [|split; [|split; [|split]]].
      * constructor; [split; auto; right; exists name; cbn; auto|]. eapply forall2_weaken; [|exact H1]. intros x y. apply planned_weaken. intros z Hz. right. auto.
      * cbn. constructor; auto. intros K. apply (H3 name K). left. reflexivity.
      * cbn. intros n [<-|K]; auto. intros L. apply (H3 n K). right. auto.
      * cbn. intros x [<-|K]; [left; auto|]. right. apply H4, K.
      * intros q b [E|Hin] Hd Hu; [injection E as <- <-; exists name; cbn; auto|]. destruct (H5 q b Hin Hd Hu) as (nm & K1 & K2). exists nm. cbn. auto.
    + destruct (IH avoid) as (m & sh & -> & H1 & H2 & H3 & H4 & H5). exists ((p, a) :: m), sh. split; auto. split; [|split; [|split; [|split]]]; auto.
      * constructor; auto. split; auto.
      * cbn. intros x K. right. apply H4, K.
      * intros q b [E|Hin] Hd Hu; [injection E as <- <-|].
        -- exfalso. rewrite Hd in C. destruct (Nat.ltb_spec 1 (uses occ p)); [discriminate|lia].
        -- destruct (H5 q b Hin Hd Hu) as (nm & K1 & K2). exists nm. cbn. auto.
Qed.
Lemma assoc_planned sh l m n : Forall2 (planned sh) l m ->
  match assoc l n, assoc m n with
  | Some a, Some r => r = a \/ exists name, r = EVar (Free name) /\ In (name, a) sh
  | None, None => True
  | _, _ => False
  end.
Proof.
  induction 1 as [|[p a] [q r] l m [Hx1 Hx2] _ IH]; cbn; auto. cbn in Hx1, Hx2. subst q. destruct (String.eqb p n); auto.
Qed.
Lemma assoc_in {A} (l : list (string * A)) n a : assoc l n = Some a -> In (n, a) l.
Proof. induction l as [|[x b] l IH]; cbn; [discriminate|]. destruct (String.eqb_spec x n) as [->|]; auto. intros H. injection H as ->. auto. Qed.
Lemma assoc_nodup {A} (l : list (string * A)) n a : NoDup (map fst l) -> In (n, a) l -> assoc l n = Some a.
Proof.
  induction l as [|[x b] l IH]; cbn; [tauto|]. intros N [E|H].
  - injection E as -> ->. rewrite String.eqb_refl. reflexivity.
  - inversion N as [|? ? N1 N2]; subst. destruct (String.eqb_spec x n) as [->|]; auto. exfalso. apply N1. apply in_map_iff. exists (n, a). auto.
Qed.
Lemma assoc_not_in {A} (l : list (string * A)) n : ~ In n (map fst l) -> assoc l n = None.
Proof. induction l as [|[x b] l IH]; cbn; auto. intros H. destruct (String.eqb_spec x n) as [->|]; [exfalso; auto|auto]. Qed.
Lemma planned_exact l : forall m, Forall2 (planned []) l m -> m = l.
Proof.
  intros m F. induction F as [|[p a] [q r] l m [H1 H2] F IH]; auto. cbn in *. subst q. f_equal; auto. destruct H2 as [->|(name & _ & [])]. reflexivity.
Qed.
Lemma combine_fst_snd {A B} (l : list (A * B)) : combine (map fst l) (map snd l) = l.
Proof. induction l as [|[a b] l IH]; cbn; congruence. Qed.
Lemma map_snd_combine {A B} (xs : list A) : forall ys : list B, List.length xs = List.length ys -> map snd (combine xs ys) = ys.
Proof. induction xs as [|x xs IH]; intros [|y ys] L; try discriminate; auto. cbn. injection L as L. f_equal. auto. Qed.
Lemma map_fst_combine {A B} (xs : list A) : forall ys : list B, List.length xs = List.length ys -> map fst (combine xs ys) = xs.
Proof. induction xs as [|x xs IH]; intros [|y ys] L; try discriminate; auto. cbn. injection L as L. f_equal. auto. Qed.

Lemma apply_inline_ok ps body args : List.length ps = List.length args -> NoDup ps -> plain_refs ps 0 body ->
  exists r, apply_inline ps body args = Some r /\ same (instantiate args 0 body) r.
Proof.
  intros L N H. unfold apply_inline, open_lam_scope. set (opened := open_expr_vars ps 0 body). set (occ := free_vars opened).
  destruct (plan_ok occ (combine ps args) (occ ++ flat_map free_vars args)) as (m & sh & -> & P1 & P2 & P3 & P4 & _).
  assert (Ei : instantiate args 0 body = substs_depth (combine ps args) 0 opened) by (apply instantiate_open; auto).
  destruct sh as [|s0 sh0] eqn:Es.
  - exists (substs_depth m 0 opened). split; auto. apply planned_exact in P1. subst m. rewrite Ei. apply Same_refl.
  - rewrite <- Es in *. clear s0 sh0 Es. unfold close_let_scope. eexists. split; [reflexivity|].
    assert (Ef : forall n a, In n (map fst sh) -> In a args -> ~ In n (free_vars a)).
    { intros n a Hn Ha K. apply (P3 n Hn), in_app_iff. right. apply in_flat_map. eauto. }
    assert (Hsh : incl (map snd sh) args) by (rewrite map_snd_combine in P4; auto).
    assert (Ec : substs_depth sh 0 (substs_depth m 0 opened) = substs_depth (combine ps args) 0 opened).
    { apply substs_compose. intros n Hn. pose proof (assoc_planned sh _ m n P1) as K.
      destruct (assoc m n) as [r|], (assoc (combine ps args) n) as [a|] eqn:Ea; try contradiction.
      - exists a. split; auto. intros d. assert (Ha : In a args).
        { apply assoc_in in Ea. apply in_combine_r in Ea. exact Ea. }
        destruct K as [->|(name & -> & K)].
        + apply substs_none. rewrite fv_iter_succ. intros x Hx. apply assoc_not_in. intros Hs. apply (Ef x a Hs Ha Hx).
        + rewrite iter_succ_var. cbn [substs_depth]. rewrite (assoc_nodup sh name a P2 K). reflexivity.
      - apply assoc_not_in. intros Hs. apply (P3 n Hs), in_app_iff. left. exact Hn. }
    rewrite Ei, <- Ec. apply Same_sym.
    replace (substs_depth sh 0 (substs_depth m 0 opened)) with (instantiate (map snd sh) 0 (close_expr_vars (map fst sh) 0 (substs_depth m 0 opened))).
    2:{ rewrite instantiate_close by (rewrite !map_length; reflexivity). rewrite combine_fst_snd. reflexivity. }
    eapply Same_trans; [|apply Same_let with (ns := map fst sh) (ds := map (fun _ => default_demand) sh); rewrite !map_length; reflexivity].
    rewrite combine_fst_snd.
    assert (Eb : forall l, incl l sh -> map (fun nv : string * expr => mkBinding (fst nv) (close_expr_vars (map fst sh) 0 (snd nv)) default_demand) l =
       map (fun nvd => mkBinding (fst (fst nvd)) (succ (snd (fst nvd))) (snd nvd)) (combine l (map (fun _ => default_demand) l))).
    { induction l as [|[n a] l IH]; intros Hl; auto. cbn. rewrite IH by (intros x Hx; apply Hl; right; auto). f_equal. f_equal. apply close_is_succ.
      intros x Hx. apply Ef; auto. apply Hsh. apply in_map_iff. exists (n, a). split; auto. apply Hl. left. auto. }
    rewrite Eb by apply incl_refl. apply Same_refl.
Qed.

(** ** The pass *)
Definition inline_named (x : expr) : Prop :=
  match x with
  | ELam true ps body => NoDup ps /\ (forall p, In p ps -> not_free p body) /\ named_after ps body
  | _ => True
  end.
Lemma named_plain ps body : (forall p, In p ps -> not_free p body) -> named_after ps body -> plain_refs ps 0 body.
Proof.
  intros H1 H2. unfold plain_refs. eapply every_ref_impl; [|exact (every_ref_and _ _ _ _ H2 (every_ref_forall (fun n d v => match v with Free m => m <> n | Bound _ _ _ => True end) ps body 0 H1))].
  intros d [m|s b m] [K1 K2]; auto. intros K. apply (K2 m K). reflexivity.
Qed.
Lemma sequence_inv {A B} (f : A -> option B) xs ys : sequence (map f xs) = Some ys -> Forall2 (fun x y => f x = Some y) xs ys.
Proof.
  revert ys. induction xs as [|x xs IH]; intros ys H; cbn in H; [injection H as <-; constructor|].
  destruct (f x) as [y|] eqn:E; [|discriminate]. destruct (sequence (map f xs)) as [l|] eqn:El; [|discriminate]. injection H as <-. constructor; auto.
Qed.
Lemma beta_node k xs : exists c, beta_reduce (ENode k xs) = c /\
  ((exists ps body args, k = KApp /\ xs = ELam true ps body :: args /\ List.length ps = List.length args /\
     c = match sequence (map beta_reduce args) with Some args' => apply_inline ps body args' | None => None end) \/
   c = option_map (ENode k) (sequence (map beta_reduce xs))).
Proof.
  eexists. split; [reflexivity|]. cbn [beta_reduce]. destruct k; auto. destruct xs as [|[v|bs body t|[] ps body|k xs] args]; auto.
  cbn [map tl]. destruct (Nat.eqb_spec (List.length ps) (List.length args)) as [E|]; auto. left. exists ps, body, args. auto.
Qed.
Lemma beta_ok e : everywhere inline_named e -> exists r, beta_reduce e = Some r /\ same e r.
Proof.
  induction e as [v|bs body t IHbs IHb|i ps body IHb|k xs IHxs] using expr_ind'; intros W.
  - exists (EVar v). split; auto. apply Same_refl.
  - apply everywhere_let in W. destruct W as (_ & W1 & W2). destruct (IHb W2) as (body' & Eb & Sb).
    destruct (forall2_ex (fun b b' => beta_reduce (b_expr b) = Some (b_expr b') /\ b_name b = b_name b' /\ b_demand b = b_demand b' /\ same (b_expr b) (b_expr b')) bs) as (bs' & F).
    { intros b Hb. rewrite Forall_forall in IHbs, W1. destruct (IHbs b Hb (W1 b Hb)) as (r & E & S). exists (mkBinding (b_name b) r (b_demand b)). auto. }
    cbn [beta_reduce]. rewrite Eb, (sequence_map _ bs bs').
    2:{ eapply forall2_impl; [|exact F]. cbn. intros b b' _ _ (E & En & Ed & _). unfold seq_b, map_b. cbn. rewrite E. cbn. f_equal. rewrite En, Ed. apply mkBinding_eta. }
    eexists. split; [reflexivity|]. apply Same_let_in; auto. eapply forall2_impl; [|exact F]. cbn. tauto.
  - apply everywhere_lam in W. destruct W as (_ & W). destruct (IHb W) as (body' & Eb & Sb). cbn [beta_reduce]. rewrite Eb. eexists. split; [reflexivity|]. apply Same_lam_in, Sb.
  - apply everywhere_node in W. destruct W as (_ & W).
    assert (Hall : forall l, incl l xs -> exists ys, sequence (map beta_reduce l) = Some ys /\ Forall2 same l ys).
    { intros l Hl. destruct (forall2_ex (fun x y => beta_reduce x = Some y /\ same x y) l) as (ys & F).
      { intros x Hx. rewrite Forall_forall in IHxs, W. apply IHxs; auto. }
      exists ys. split; [apply sequence_map|]; (eapply forall2_impl; [|exact F]; cbn; tauto). }
    destruct (beta_node k xs) as (c & -> & [(ps & body & args & -> & -> & L & ->)| ->]).
    + destruct (Hall args) as (args' & -> & F); [intros x Hx; right; auto|]. inversion W as [|? ? W1 W2]; subst. apply everywhere_lam in W1. destruct W1 as ((N1 & N2 & N3) & _).
      assert (L' : List.length ps = List.length args') by (rewrite L; eapply forall2_len; eauto).
      destruct (apply_inline_ok ps body args' L' N1 (named_plain ps body N2 N3)) as (r & -> & S). exists r. split; auto.
      eapply Same_trans; [apply Same_node_in; constructor; [apply Same_refl|exact F]|]. eapply Same_trans; [apply Same_call; auto|exact S].
    + destruct (Hall xs) as (ys & -> & F); [apply incl_refl|]. eexists. split; [reflexivity|]. apply Same_node_in, F.
Qed.
