(** Proofs about operator resolution. *)
From Coq Require Import List ZArith NArith Bool Lia.
From Verif.Shunt Require Import Model Spec.
Import ListNotations.
Open Scope Z_scope.

(** ** Frames: the operators waiting on the stack with what they already hold *)

Inductive frame := FPre (o : opr) | FBin (o : opr) (l : tree).
Definition fop (f : frame) : opr := match f with FPre o | FBin o _ => o end.
Fixpoint lefts (fs : list frame) : list tree :=
  match fs with
  | [] => []
  | FPre _ :: fs => lefts fs
  | FBin _ l :: fs => l :: lefts fs
  end.
Definition frame_fix_ok (f : frame) : Prop :=
  match f with
  | FPre o => o_fix o = UnaryPrefix
  | FBin o _ => o_fix o = InfixLeft \/ o_fix o = InfixRight
  end.
Definition plug (f : frame) (t : tree) : tree :=
  match f with FPre o => Pre o t | FBin o l => Bin o l t end.
Definition fopen (f : frame) : list opr :=
  match f with FPre _ => [] | FBin o l => o :: left_open l end.
Definition ftoks (f : frame) : list tok :=
  match f with FPre o => [TOp o] | FBin o l => reading l ++ [TOp o] end.
Definition ftree_ok (f : frame) : Prop :=
  match f with
  | FPre _ => True
  | FBin o l => arities_ok l /\ entitled l /\ Forall (fun a => binds_left a o) (right_open l)
  end.
Definition top_leaves (fs : list frame) (bs : list opr) : Prop :=
  match fs with
  | [] => True
  | f :: _ => Forall (fun b => ~ binds_left (fop f) b) bs
  end.
Fixpoint frames_ok (fs : list frame) : Prop :=
  match fs with
  | [] => True
  | f :: fs' => frame_fix_ok f /\ ftree_ok f /\ top_leaves fs' (fopen f) /\ frames_ok fs'
  end.
Fixpoint fstoks (fs : list frame) : list tok :=
  match fs with [] => [] | f :: fs' => fstoks fs' ++ ftoks f end.

Notation tapply := (apply_op Nul tap1 tap2).
Notation tseat := (seat_op Nul tap1 tap2).
Notation tclear := (clear_ops Nul tap1 tap2).
Notation tloop := (loop Leaf Nul tap1 tap2).

Lemma apply_frame f fs t err :
  frame_fix_ok f ->
  tapply (fop f) (t :: lefts (f :: fs)) err = Some (plug f t :: lefts fs, err).
Proof.
  destruct f as [o|o l]; cbn [frame_fix_ok fop lefts plug]; unfold apply_op, tap1, tap2.
  - intros ->. reflexivity.
  - intros [-> | ->]; reflexivity.
Qed.

Lemma apply_frame_bin o l out t err :
  o_fix o = InfixLeft \/ o_fix o = InfixRight ->
  tapply o (t :: l :: out) err = Some (Bin o l t :: out, err).
Proof. unfold apply_op, tap2. intros [-> | ->]; reflexivity. Qed.

Lemma apply_post o t out err :
  o_fix o = UnaryPostfix -> tapply o (t :: out) err = Some (Post o t :: out, err).
Proof. unfold apply_op, tap1. intros ->. reflexivity. Qed.

(** One step of [seat_op] for a non-nullary operator against a frame. *)
Lemma binds_left_dec a b : {binds_left a b} + {~ binds_left a b}.
Proof.
  unfold binds_left; destruct (o_fix a).
  - left; exact I.
  - destruct (Z_lt_dec (o_prec b) (o_prec a)); auto.
  - left; exact I.
  - destruct (Z_le_dec (o_prec b) (o_prec a)); auto.
  - destruct (Z_lt_dec (o_prec b) (o_prec a)); auto.
Qed.

Lemma seat_pop op f fs t err :
  o_fix op <> Nullary -> frame_fix_ok f -> binds_left (fop f) op ->
  tseat op (map fop (f :: fs)) (t :: lefts (f :: fs)) err
  = tseat op (map fop fs) (plug f t :: lefts fs) err.
Proof.
  intros Hn Hf Hb.
  cbn [map seat_op].
  rewrite (apply_frame f fs t err Hf).
  unfold binds_left in Hb.
  destruct (fixity_eqb (o_fix op) Nullary) eqn:E; [destruct (o_fix op); cbn in E; congruence|].
  destruct f as [o|o l]; cbn [fop frame_fix_ok] in *.
  - rewrite Hf in *. cbn [fixity_eqb].
    apply Z.ltb_lt in Hb. rewrite Hb. destruct (fixity_eqb (o_fix op) UnaryPostfix); reflexivity.
  - destruct Hf as [Hf|Hf]; rewrite Hf in *; cbn [fixity_eqb].
    + apply Z.leb_le in Hb. rewrite Hb. reflexivity.
    + apply Z.ltb_lt in Hb. rewrite Hb. reflexivity.
Qed.

Lemma seat_push op f fs out err :
  o_fix op <> Nullary -> frame_fix_ok f -> ~ binds_left (fop f) op ->
  (o_fix op = UnaryPostfix -> match f with FPre _ => False | _ => True end) ->
  tseat op (map fop (f :: fs)) out err = Some (op :: map fop (f :: fs), out, err).
Proof.
  intros Hn Hf Hb Hp.
  cbn [map seat_op]. unfold binds_left in Hb.
  destruct (fixity_eqb (o_fix op) Nullary) eqn:E; [destruct (o_fix op); cbn in E; congruence|].
  destruct f as [o|o l]; cbn [fop frame_fix_ok] in *.
  - rewrite Hf in *. cbn [fixity_eqb].
    assert (Hlt : (o_prec op <? o_prec o) = false) by (apply Z.ltb_ge; lia). rewrite Hlt.
    destruct (o_fix op); cbn [fixity_eqb]; try reflexivity. now destruct Hp.
  - destruct Hf as [Hf|Hf]; rewrite Hf in *; cbn [fixity_eqb].
    + assert (Hlt : (o_prec op <=? o_prec o) = false) by (apply Z.leb_gt; lia).
      rewrite Hlt. reflexivity.
    + assert (Hlt : (o_prec op <? o_prec o) = false) by (apply Z.ltb_ge; lia).
      rewrite Hlt. reflexivity.
Qed.

Lemma seat_post_pre op o fs t out err :
  o_fix op = UnaryPostfix -> o_fix o = UnaryPrefix -> ~ binds_left o op ->
  tseat op (o :: map fop fs) (t :: out) err = Some (o :: map fop fs, Post op t :: out, err).
Proof.
  intros Hp Ho Hb. cbn [seat_op]. unfold binds_left in Hb. rewrite Hp, Ho in *. cbn [fixity_eqb].
  assert (Hlt : (o_prec op <? o_prec o) = false) by (apply Z.ltb_ge; lia). rewrite Hlt.
  rewrite (apply_post op t out err Hp). reflexivity.
Qed.

Lemma seat_over_post op o fs t out err :
  o_fix op <> Nullary -> o_fix o = UnaryPostfix ->
  tseat op (o :: map fop fs) (t :: out) err = tseat op (map fop fs) (Post o t :: out) err.
Proof.
  intros Hn Ho. cbn [seat_op]. rewrite Ho. cbn [fixity_eqb].
  destruct (fixity_eqb (o_fix op) Nullary) eqn:E; [destruct (o_fix op); cbn in E; congruence|].
  rewrite (apply_post o t out err Ho). reflexivity.
Qed.

Lemma seat_empty op out err :
  o_fix op <> Nullary -> tseat op [] out err = Some ([op], out, err).
Proof. intros Hn. cbn [seat_op]. destruct (o_fix op); try reflexivity. congruence. Qed.

(** ** The abstract states of the machine between tokens *)

(** After a token, with an operand due: [fs]. After an operand: [fs] and the
    operand, possibly with one postfix operator still on the stack. *)
Inductive pend := PNone | PPost (o : opr).
Definition pend_ops (p : pend) (fs : list frame) : list opr :=
  match p with PNone => map fop fs | PPost o => o :: map fop fs end.
Definition pend_tree (p : pend) (t : tree) : tree :=
  match p with PNone => t | PPost o => Post o t end.
Definition pend_ok (p : pend) : Prop :=
  match p with PNone => True | PPost o => o_fix o = UnaryPostfix end.

Lemma seat_pend op p fs t err :
  o_fix op <> Nullary -> pend_ok p ->
  tseat op (pend_ops p fs) (t :: lefts fs) err
  = tseat op (map fop fs) (pend_tree p t :: lefts fs) err.
Proof.
  destruct p; cbn [pend_ops pend_tree pend_ok]; intros; auto using seat_over_post.
Qed.

Lemma clear_pend p fs t err :
  pend_ok p ->
  tclear (pend_ops p fs) (t :: lefts fs) err
  = tclear (map fop fs) (pend_tree p t :: lefts fs) err.
Proof.
  destruct p; cbn [pend_ops pend_tree pend_ok]; intros; auto.
  cbn [clear_ops]. now rewrite apply_post.
Qed.

(** Seating an infix or postfix operator: soundness. *)
Lemma plug_ok f fs t :
  frames_ok (f :: fs) -> arities_ok t -> entitled t -> top_leaves (f :: fs) (left_open t) ->
  arities_ok (plug f t) /\ entitled (plug f t) /\ top_leaves fs (left_open (plug f t))
  /\ left_open (plug f t) = fopen f /\ right_open (plug f t) = fop f :: right_open t
  /\ reading (plug f t) = ftoks f ++ reading t.
Proof.
  intros (Hf & Ht & Hl & _) Ha He Htl.
  destruct f as [o|o l]; cbn [plug arities_ok entitled left_open fopen right_open fop
    reading ftoks frame_fix_ok ftree_ok top_leaves] in *.
  - repeat split; auto.
  - destruct Ht as (? & ? & ?). rewrite <- app_assoc. repeat split; auto.
Qed.

Definition is_infix (o : opr) := o_fix o = InfixLeft \/ o_fix o = InfixRight.

Lemma seat_infix_sound op (Hop : is_infix op) : forall fs t err,
  frames_ok fs -> arities_ok t -> entitled t -> top_leaves fs (left_open t) ->
  Forall (fun a => binds_left a op) (right_open t) ->
  exists fs', tseat op (map fop fs) (t :: lefts fs) err = Some (map fop fs', lefts fs', err)
    /\ frames_ok fs' /\ fstoks fs' = fstoks fs ++ reading t ++ [TOp op]
    /\ match fs' with [] => False | f :: _ => fop f = op end.
Proof.
  assert (Hn : o_fix op <> Nullary) by (destruct Hop; congruence).
  induction fs as [|f fs IH]; intros t err Hfs Ha He Htl Hro.
  - exists [FBin op t]. rewrite seat_empty by auto. cbn. repeat split; auto.
  - destruct (binds_left_dec (fop f) op) as [Hb|Hb].
    + rewrite (seat_pop op f fs t err Hn (proj1 Hfs) Hb).
      destruct (plug_ok f fs t Hfs Ha He Htl) as (P1 & P2 & P3 & P4 & P5 & P6).
      destruct (IH (plug f t) err) as (fs' & E & F1 & F2 & F3); auto.
      * apply Hfs.
      * rewrite P5. constructor; auto.
      * exists fs'. repeat split; auto. rewrite F2, P6. cbn [fstoks]. now rewrite <- !app_assoc.
    + exists (FBin op t :: f :: fs).
      rewrite (seat_push op f fs); auto; [|apply Hfs|destruct Hop; congruence].
      cbn [frames_ok frame_fix_ok ftree_ok fopen top_leaves fstoks ftoks] in *.
      repeat split; auto; apply Hfs.
Qed.

Lemma seat_post_sound op (Hop : o_fix op = UnaryPostfix) : forall fs t err,
  frames_ok fs -> arities_ok t -> entitled t -> top_leaves fs (left_open t) ->
  Forall (fun a => binds_left a op) (right_open t) ->
  exists p fs' t', tseat op (map fop fs) (t :: lefts fs) err
       = Some (pend_ops p fs', t' :: lefts fs', err)
    /\ pend_ok p /\ let u := pend_tree p t' in
       frames_ok fs' /\ arities_ok u /\ entitled u /\ top_leaves fs' (left_open u)
       /\ right_open u = [] /\ fstoks fs' ++ reading u = fstoks fs ++ reading t ++ [TOp op].
Proof.
  assert (Hn : o_fix op <> Nullary) by congruence.
  induction fs as [|f fs IH]; intros t err Hfs Ha He Htl Hro.
  - exists (PPost op), [], t. rewrite seat_empty by auto. cbn. repeat split; auto.
  - destruct (binds_left_dec (fop f) op) as [Hb|Hb].
    + rewrite (seat_pop op f fs t err Hn (proj1 Hfs) Hb).
      destruct (plug_ok f fs t Hfs Ha He Htl) as (P1 & P2 & P3 & P4 & P5 & P6).
      destruct (IH (plug f t) err) as (p & fs' & t' & E & F1 & F2); auto.
      * apply Hfs.
      * rewrite P5. constructor; auto.
      * exists p, fs', t'. split; [exact E|]. split; [exact F1|].
        cbv zeta in *. destruct F2 as (? & ? & ? & ? & ? & F2).
        repeat split; auto. rewrite F2, P6. cbn [fstoks]. now rewrite <- !app_assoc.
    + destruct f as [o|o l].
      * exists PNone, (FPre o :: fs), (Post op t).
        cbn [map fop lefts] in *. rewrite seat_post_pre; auto; [|apply Hfs].
        cbn [pend_ops map fop pend_tree pend_ok top_leaves arities_ok entitled left_open
             right_open reading] in *.
        repeat split; auto; apply Hfs.
      * exists (PPost op), (FBin o l :: fs), t.
        rewrite (seat_push op (FBin o l) fs); auto; [|apply Hfs].
        cbn [pend_ops map fop pend_tree pend_ok top_leaves arities_ok entitled left_open
             right_open reading lefts] in *.
        repeat split; auto; apply Hfs.
Qed.

Lemma clear_sound : forall fs t err,
  frames_ok fs -> arities_ok t -> entitled t -> top_leaves fs (left_open t) ->
  exists t', tclear (map fop fs) (t :: lefts fs) err = Some ([t'], err)
    /\ arities_ok t' /\ entitled t' /\ reading t' = fstoks fs ++ reading t.
Proof.
  induction fs as [|f fs IH]; intros t err Hfs Ha He Htl.
  - exists t. cbn. auto.
  - cbn [map clear_ops]. rewrite (apply_frame f fs t err (proj1 Hfs)).
    destruct (plug_ok f fs t Hfs Ha He Htl) as (P1 & P2 & P3 & P4 & P5 & P6).
    destruct (IH (plug f t) err) as (t' & E & ? & ? & F); auto; [apply Hfs|].
    exists t'. repeat split; auto. rewrite F, P6. cbn [fstoks]. now rewrite <- app_assoc.
Qed.

(** ** No filler is inserted in a filled soup *)

Lemma filler_to_operand l rest :
  operand_next rest ->
  snd (bind_sides l) = OpLike -> filler l (hd_error rest) = FillNone.
Proof.
  intros H Hl. unfold filler. rewrite Hl.
  destruct H; cbn [hd_error bind_sides]; try rewrite H; reflexivity.
Qed.
Lemma filler_to_operator l rest :
  operator_next rest ->
  snd (bind_sides l) = ValueLike -> filler l (hd_error rest) = FillNone.
Proof.
  intros H Hl. unfold filler. rewrite Hl.
  destruct H; cbn [hd_error bind_sides]; try rewrite H; try reflexivity.
  destruct H as [-> | ->]; reflexivity.
Qed.

Lemma sides_infix o : is_infix o -> snd (bind_sides (Some (TOp o))) = OpLike.
Proof. cbn. now intros [-> | ->]. Qed.
Lemma sides_pre o : o_fix o = UnaryPrefix -> snd (bind_sides (Some (TOp o))) = OpLike.
Proof. cbn. now intros ->. Qed.
Lemma sides_post o : o_fix o = UnaryPostfix -> snd (bind_sides (Some (TOp o))) = ValueLike.
Proof. cbn. now intros ->. Qed.
Lemma sides_nul o : o_fix o = Nullary -> snd (bind_sides (Some (TOp o))) = ValueLike.
Proof. cbn. now intros ->. Qed.

Scheme operand_ind' := Minimality for operand_next Sort Prop
  with operator_ind' := Minimality for operator_next Sort Prop.
Combined Scheme soup_ind from operand_ind', operator_ind'.

(** Steps of the main loop, generic in the output type. *)
Section Steps.
  Context {X : Type} (leaf : expr -> X) (ap0 : opr -> X)
    (ap1 : opr -> X -> option X) (ap2 : opr -> X -> X -> option X).
  Notation loop := (loop leaf ap0 ap1 ap2).
  Notation seat := (seat_op ap0 ap1 ap2).
  Notation clear := (clear_ops ap0 ap1 ap2).

  Lemma loop_op n o inp out ops err :
    filler (Some (TOp o)) (hd_error inp) = FillNone ->
    loop (S n) (mkSt (TOp o :: inp) out ops err)
    = match seat o ops out err with
      | Some (ops', out', err') => loop n (mkSt inp out' ops' err')
      | None => PanicApply
      end.
  Proof.
    intros H. cbn [Model.loop is_complete input Model.ops]. unfold shunt1.
    cbn [input Model.ops output error]. unfold insert_fill. rewrite H.
    destruct (seat o ops out err) as [[[? ?] ?]|]; reflexivity.
  Qed.

  Lemma loop_val n e inp out ops err :
    filler (Some (TVal e)) (hd_error inp) = FillNone ->
    loop (S n) (mkSt (TVal e :: inp) out ops err)
    = loop n (mkSt inp (leaf e :: out) ops err).
  Proof.
    intros H. cbn [Model.loop is_complete input Model.ops]. unfold shunt1.
    cbn [input Model.ops output error]. unfold insert_fill. rewrite H. reflexivity.
  Qed.

  Lemma loop_end n out ops err :
    loop (S n) (mkSt [] out ops err)
    = match clear ops out err with
      | Some (out', err') =>
          if err' then Failed else match out' with x :: _ => Done x | [] => PanicEmpty end
      | None => PanicApply
      end.
  Proof.
    destruct ops as [|o ops].
    - reflexivity.
    - cbn [Model.loop is_complete input Model.ops]. unfold shunt1.
      cbn [input Model.ops output error].
      destruct (clear (o :: ops) out err) as [[out' err']|]; [|reflexivity].
      destruct n; reflexivity.
  Qed.
End Steps.

(** ** Soundness *)

Lemma run_sound :
  (forall toks, operand_next toks -> forall n fs prev,
     (n > length toks)%nat ->
     frames_ok fs -> prefixes_tight prev toks ->
     match fs with [] => True | f :: _ => prev = Some (fop f) end ->
     exists t, tloop n (mkSt toks (lefts fs) (map fop fs) false) = Done t
       /\ arities_ok t /\ entitled t /\ reading t = fstoks fs ++ toks)
  /\
  (forall toks, operator_next toks -> forall n fs p t prev,
     (n > length toks)%nat ->
     frames_ok fs -> pend_ok p -> prefixes_tight prev toks ->
     let u := pend_tree p t in
     arities_ok u -> entitled u -> top_leaves fs (left_open u) -> right_open u = [] ->
     exists t', tloop n (mkSt toks (t :: lefts fs) (pend_ops p fs) false) = Done t'
       /\ arities_ok t' /\ entitled t' /\ reading t' = fstoks fs ++ reading u ++ toks).
Proof.
  apply soup_ind.
  - intros e rest Hr IH n fs prev Hn Hfs Hpt Hprev. cbn [length] in Hn.
    destruct n as [|n]; [lia|]. rewrite loop_val by (apply filler_to_operator; auto).
    destruct (IH n fs PNone (Leaf e) None) as (t & E & ? & ? & R); cbn; auto; try lia.
    { destruct fs; cbn; auto. }
    exists t. auto.
  - intros o rest Ho Hr IH n fs prev Hn Hfs Hpt Hprev. cbn [length] in Hn.
    destruct n as [|n]; [lia|].
    rewrite loop_op by (apply filler_to_operator; auto using sides_nul).
    assert (Es : tseat o (map fop fs) (lefts fs) false = Some (map fop fs, Nul o :: lefts fs, false)).
    { destruct fs; cbn [map seat_op]; unfold apply_op; rewrite Ho; reflexivity. }
    rewrite Es. cbn [prefixes_tight] in Hpt. rewrite Ho in Hpt.
    destruct (IH n fs PNone (Nul o) None) as (t & E & ? & ? & R); cbn; auto; try lia.
    { destruct fs; cbn; auto. }
    exists t. auto.
  - intros o rest Ho Hr IH n fs prev Hn Hfs Hpt Hprev. cbn [length] in Hn.
    destruct n as [|n]; [lia|].
    rewrite loop_op by (apply filler_to_operand; auto using sides_pre).
    cbn [prefixes_tight] in Hpt. rewrite Ho in Hpt. destruct Hpt as [Hp Hpt].
    assert (Es : tseat o (map fop fs) (lefts fs) false
                 = Some (map fop (FPre o :: fs), lefts (FPre o :: fs), false)).
    { destruct fs as [|f fs].
      - apply seat_empty. congruence.
      - subst prev. apply seat_push; auto; try congruence. apply Hfs. }
    rewrite Es.
    destruct (IH n (FPre o :: fs) (Some o)) as (t & E & ? & ? & R); auto; try lia.
    { cbn. repeat split; auto. destruct fs; cbn; auto. }
    exists t. repeat split; auto. rewrite R. cbn [fstoks ftoks]. now rewrite <- app_assoc.
  - intros n fs p t prev Hn Hfs Hp Hpt u Ha He Htl Hro. cbn [length] in Hn.
    destruct n as [|n]; [lia|]. rewrite loop_end, clear_pend by auto. fold u.
    destruct (clear_sound fs u false Hfs Ha He Htl) as (t' & E & ? & ? & R).
    rewrite E. exists t'. repeat split; auto. now rewrite app_nil_r.
  - intros o rest Ho Hr IH n fs p t prev Hn Hfs Hp Hpt u Ha He Htl Hro. cbn [length] in Hn.
    destruct n as [|n]; [lia|].
    rewrite loop_op by (apply filler_to_operator; auto using sides_post).
    rewrite seat_pend by (auto; congruence). fold u.
    destruct (seat_post_sound o Ho fs u false) as (p' & fs' & t' & E & F1 & F2); auto.
    { rewrite Hro. constructor. }
    cbv zeta in F2. destruct F2 as (G1 & G2 & G3 & G4 & G5 & G6).
    rewrite E. cbn [prefixes_tight] in Hpt. rewrite Ho in Hpt.
    destruct (IH n fs' p' t' None) as (r & E' & ? & ? & R); auto; try lia.
    exists r. repeat split; auto. rewrite R, app_assoc, G6. now rewrite <- !app_assoc.
  - intros o rest Ho Hr IH n fs p t prev Hn Hfs Hp Hpt u Ha He Htl Hro. cbn [length] in Hn.
    destruct n as [|n]; [lia|].
    rewrite loop_op by (apply filler_to_operand; auto using sides_infix).
    rewrite seat_pend by (auto; destruct Ho; congruence). fold u.
    destruct (seat_infix_sound o Ho fs u false) as (fs' & E & F1 & F2 & F3); auto.
    { rewrite Hro. constructor. }
    rewrite E. cbn [prefixes_tight] in Hpt.
    assert (Hpt' : prefixes_tight (Some o) rest) by (destruct Ho as [Ho|Ho]; rewrite Ho in Hpt; auto).
    destruct (IH n fs' (Some o)) as (r & E' & ? & ? & R); auto; try lia.
    { destruct fs' as [|f ?]; auto. now subst o. }
    exists r. repeat split; auto. rewrite R, F2. now rewrite <- !app_assoc.
Qed.

Lemma shunt_filled X leaf ap0 ap1 ap2 toks :
  operand_next toks ->
  @shunt X leaf ap0 ap1 ap2 toks
  = loop leaf ap0 ap1 ap2 (2 * length toks + 3) (mkSt toks [] [] false).
Proof.
  intros H. unfold shunt, shunt_fuel.
  destruct toks as [|x toks]; [inversion H|].
  unfold insert_fill. now rewrite filler_to_operand.
Qed.

Lemma shunt_tree_sound toks :
  operand_next toks -> prefixes_tight None toks ->
  exists t, shunt_tree toks = Done t /\ arities_ok t /\ entitled t /\ reading t = toks.
Proof.
  intros Ho Hp. unfold shunt_tree. rewrite shunt_filled by auto.
  destruct (proj1 run_sound toks Ho (2 * length toks + 3)%nat [] None) as (t & E & A & B & C);
    cbn; auto; try lia.
  exists t. auto.
Qed.

(** ** Completeness *)

(** The state reached after reading [t] on top of [fs]. *)
Fixpoint dec (t : tree) (fs : list frame) : list frame * pend * tree :=
  match t with
  | Pre o x => dec x (FPre o :: fs)
  | Bin o l r => dec r (FBin o l :: fs)
  | Post o x => match fs with
                | FPre _ :: _ => (fs, PNone, Post o x)
                | _ => (fs, PPost o, x)
                end
  | _ => (fs, PNone, t)
  end.

Definition dstate (d : list frame * pend * tree) (toks : list tok) : st tree :=
  let '(fs, p, t) := d in mkSt toks (t :: lefts fs) (pend_ops p fs) false.

Definition seat_at (op : opr) (d : list frame * pend * tree) :=
  let '(fs, p, t) := d in tseat op (pend_ops p fs) (t :: lefts fs) false.

Definition clear_at (d : list frame * pend * tree) :=
  let '(fs, p, t) := d in tclear (pend_ops p fs) (t :: lefts fs) false.

Definition fixes_ok (fs : list frame) := Forall frame_fix_ok fs.

Lemma seat_dec op : o_fix op <> Nullary -> forall t fs,
  arities_ok t -> fixes_ok fs ->
  Forall (fun a => binds_left a op) (right_open t) ->
  seat_at op (dec t fs) = tseat op (map fop fs) (t :: lefts fs) false.
Proof.
  intros Hn. induction t as [e|o|o x IH|o x _|o l _ r IH]; intros fs Ha Hfs Hro;
    cbn [dec arities_ok right_open] in *; try reflexivity.
  - inversion_clear Hro. rewrite IH; auto; [|apply Ha|constructor; auto; apply Ha].
    apply (seat_pop op (FPre o)); auto; apply Ha.
  - assert (E : seat_at op (fs, PPost o, x) = tseat op (map fop fs) (Post o x :: lefts fs) false).
    { cbn [seat_at]. apply (seat_pend op (PPost o)); auto. apply Ha. }
    destruct fs as [|[?|? ?] ?]; auto.
  - inversion_clear Hro. rewrite IH; auto; [|apply Ha|constructor; auto; apply Ha].
    apply (seat_pop op (FBin o l)); auto; apply Ha.
Qed.

Lemma clear_dec : forall t fs, arities_ok t -> fixes_ok fs ->
  clear_at (dec t fs) = tclear (map fop fs) (t :: lefts fs) false.
Proof.
  induction t as [e|o|o x IH|o x _|o l _ r IH]; intros fs Ha Hfs;
    cbn [dec arities_ok] in *; try reflexivity.
  - rewrite IH; auto; [|apply Ha|constructor; auto; apply Ha].
    cbn [map clear_ops]. rewrite (apply_frame (FPre o)); auto; apply Ha.
  - assert (E : clear_at (fs, PPost o, x) = tclear (map fop fs) (Post o x :: lefts fs) false).
    { cbn [clear_at]. apply (clear_pend (PPost o)); auto. apply Ha. }
    destruct fs as [|[?|? ?] ?]; auto.
  - rewrite IH; auto; [|apply Ha|constructor; auto; apply Ha].
    cbn [map clear_ops]. rewrite (apply_frame (FBin o l)); auto; apply Ha.
Qed.

Lemma reading_nonempty t : reading t <> [].
Proof.
  destruct t; cbn [reading]; try discriminate;
    (destruct (reading t) || destruct (reading t1)); discriminate.
Qed.

Lemma reading_starts t rest :
  arities_ok t -> operator_next rest -> operand_next (reading t ++ rest).
Proof.
  revert rest; induction t; intros rest Ha Hr; cbn [reading arities_ok app] in *.
  - now constructor.
  - apply on_nul; auto.
  - apply on_pre; [apply Ha|]. apply IHt; auto; apply Ha.
  - rewrite <- app_assoc. apply IHt; [apply Ha|]. cbn. apply op_post; auto. apply Ha.
  - rewrite <- app_assoc. apply IHt1; [apply Ha|]. cbn. apply op_bin; [apply Ha|].
    apply IHt2; auto; apply Ha.
Qed.

Lemma tight_app : forall t prev rest,
  arities_ok t ->
  prefixes_tight prev (reading t ++ rest) -> prefixes_tight None rest.
Proof.
  induction t; intros prev rest Ha Hp; cbn [reading arities_ok app prefixes_tight] in *; auto.
  - rewrite Ha in Hp; auto.
  - destruct Ha as [Ha Hb]. rewrite Ha in Hp. eapply IHt; eauto. apply Hp.
  - destruct Ha as [Ha Hb]. rewrite <- app_assoc in Hp. apply IHt in Hp; auto.
    cbn in Hp. now rewrite Ha in Hp.
  - destruct Ha as (Ha & Hb & Hc). rewrite <- app_assoc in Hp. apply IHt1 in Hp; auto.
    cbn in Hp. destruct Ha as [Ha|Ha]; rewrite Ha in Hp; eapply IHt2; eauto.
Qed.

Lemma tight_bin o prev t1 t2 rest :
  arities_ok (Bin o t1 t2) ->
  prefixes_tight prev (reading (Bin o t1 t2) ++ rest) ->
  prefixes_tight prev (reading t1 ++ TOp o :: reading t2 ++ rest)
  /\ prefixes_tight (Some o) (reading t2 ++ rest).
Proof.
  cbn [reading arities_ok]. rewrite <- app_assoc. intros (Ha & Hb & Hc) Hp. split; auto.
  apply tight_app in Hp; auto. cbn in Hp. destruct Ha as [Ha|Ha]; now rewrite Ha in Hp.
Qed.

Lemma run_complete : forall t fs rest n prev,
  arities_ok t -> entitled t -> fixes_ok fs ->
  top_leaves fs (left_open t) ->
  prefixes_tight prev (reading t ++ rest) ->
  match fs with [] => True | f :: _ => prev = Some (fop f) end ->
  operator_next rest ->
  tloop (length (reading t) + n) (mkSt (reading t ++ rest) (lefts fs) (map fop fs) false)
  = tloop n (dstate (dec t fs) rest).
Proof.
  induction t as [e|o|o x IH|o x IH|o l IHl r IHr];
    intros fs rest n prev Ha He Hfs Htl Hpt Hprev Hr.
  - cbn [reading length Nat.add app]. rewrite loop_val by (apply filler_to_operator; auto).
    reflexivity.
  - cbn [reading length Nat.add app]. cbn [arities_ok] in Ha.
    rewrite loop_op by (apply filler_to_operator; auto using sides_nul).
    assert (Es : tseat o (map fop fs) (lefts fs) false = Some (map fop fs, Nul o :: lefts fs, false)).
    { destruct fs; cbn [map seat_op]; unfold apply_op; rewrite Ha; reflexivity. }
    now rewrite Es.
  - cbn [reading length Nat.add app]. cbn [arities_ok] in Ha. destruct Ha as [Ho Ha].
    rewrite loop_op by (apply filler_to_operand; auto using sides_pre, reading_starts).
    cbn [reading app prefixes_tight] in Hpt. rewrite Ho in Hpt. destruct Hpt as [Hp Hpt].
    assert (Es : tseat o (map fop fs) (lefts fs) false
                 = Some (map fop (FPre o :: fs), lefts (FPre o :: fs), false)).
    { destruct fs as [|f fs].
      - apply seat_empty. congruence.
      - subst prev. apply seat_push; auto; try congruence. now inversion Hfs. }
    rewrite Es. destruct He as [He Hlo].
    rewrite (IH (FPre o :: fs) rest n (Some o)); auto. constructor; auto.
  - cbn [reading arities_ok entitled left_open] in *.
    destruct Ha as [Ho Ha], He as [He Hro].
    rewrite app_length, <- !app_assoc, <- Nat.add_assoc in *. cbn [length app Nat.add] in *.
    assert (Htl' : top_leaves fs (left_open x)).
    { destruct fs; cbn in *; auto. now inversion Htl. }
    rewrite (IH fs (TOp o :: rest) (S n) prev); auto using op_post.
    assert (E := seat_dec o ltac:(congruence) x fs Ha Hfs Hro).
    destruct (dec x fs) as [[fs' p'] t'] eqn:Ed. cbn [dstate seat_at] in *.
    rewrite loop_op by (apply filler_to_operator; auto using sides_post).
    rewrite E. cbn [dec].
    destruct fs as [|[o1|o1 l1] fs].
    + rewrite seat_empty by congruence. reflexivity.
    + cbn [map fop lefts]. cbn [top_leaves fop] in Htl. inversion_clear Htl.
      inversion_clear Hfs.
      rewrite seat_post_pre; auto.
    + cbn [top_leaves fop] in Htl. inversion_clear Htl. inversion_clear Hfs.
      rewrite (seat_push o (FBin o1 l1)); auto; congruence.
  - destruct (tight_bin _ _ _ _ _ Ha Hpt) as [Hp1 Hp2].
    cbn [reading arities_ok entitled left_open] in *.
    destruct Ha as (Ho & Hal & Har), He as (Hel & Her & Hro & Hlo).
    rewrite app_length, <- !app_assoc, <- Nat.add_assoc in *. cbn [length app Nat.add] in *.
    assert (Htl' : top_leaves fs (left_open l)).
    { destruct fs; cbn in *; auto. now inversion Htl. }
    assert (Hon : operand_next (reading r ++ rest)) by auto using reading_starts.
    rewrite (IHl fs (TOp o :: reading r ++ rest) (S (length (reading r) + n)) prev);
      auto using op_bin.
    assert (Hn : o_fix o <> Nullary) by (destruct Ho; congruence).
    assert (E := seat_dec o Hn l fs Hal Hfs Hro).
    destruct (dec l fs) as [[fs' p'] t'] eqn:Ed. cbn [dstate seat_at] in *.
    rewrite loop_op by (apply filler_to_operand; auto using sides_infix).
    rewrite E. cbn [dec].
    assert (Es : tseat o (map fop fs) (l :: lefts fs) false
                 = Some (map fop (FBin o l :: fs), lefts (FBin o l :: fs), false)).
    { destruct fs as [|f fs].
      - now apply seat_empty.
      - cbn [top_leaves] in Htl. inversion_clear Htl. inversion_clear Hfs.
        apply seat_push; auto. destruct Ho; congruence. }
    rewrite Es. apply (IHr (FBin o l :: fs) rest n (Some o)); auto.
    constructor; auto.
Qed.

Lemma shunt_tree_complete t :
  arities_ok t -> entitled t -> prefixes_tight None (reading t) ->
  shunt_tree (reading t) = Done t.
Proof.
  intros Ha He Hp.
  assert (Hon : operand_next (reading t)).
  { rewrite <- (app_nil_r (reading t)). apply reading_starts; auto. constructor. }
  unfold shunt_tree. rewrite shunt_filled by auto.
  set (n := (2 * length (reading t) + 3)%nat).
  replace n with (length (reading t) + (S (n - length (reading t) - 1)))%nat by lia.
  pose proof (run_complete t [] [] (S (n - length (reading t) - 1)) None) as R.
  rewrite app_nil_r in R. cbn [lefts map] in R.
  rewrite R by (auto; try exact I; constructor).
  assert (E := clear_dec t [] Ha ltac:(constructor)).
  destruct (dec t []) as [[fs' p'] t']. cbn [dstate clear_at] in *.
  rewrite loop_end, E. reflexivity.
Qed.

Lemma shunt_tree_iff toks t :
  operand_next toks -> prefixes_tight None toks ->
  shunt_tree toks = Done t <-> arities_ok t /\ entitled t /\ reading t = toks.
Proof.
  intros Ho Hp. split.
  - intros E. destruct (shunt_tree_sound toks Ho Hp) as (t' & E' & ?).
    rewrite E in E'. inversion E'. now subst.
  - intros (Ha & He & <-). now apply shunt_tree_complete.
Qed.

(** ** The textbook reading of infix expressions *)

Fixpoint infix_tree (t : tree) : Prop :=
  match t with
  | Leaf _ => True
  | Bin o l r => is_infix o /\ infix_tree l /\ infix_tree r
  | _ => False
  end.

Lemma infix_expr_filled toks : infix_expr toks -> operand_next toks.
Proof.
  induction 1.
  - repeat constructor.
  - constructor. apply op_bin; auto.
Qed.

Lemma infix_expr_tight toks : infix_expr toks -> forall prev, prefixes_tight prev toks.
Proof.
  induction 1; intros; cbn; auto. destruct H as [-> | ->]; auto.
Qed.

Definition infixish (t : tok) : Prop :=
  match t with TVal _ => True | TOp o => is_infix o end.

Lemma infix_expr_infixish toks : infix_expr toks -> Forall infixish toks.
Proof. induction 1; (constructor; [exact I|]); [constructor|]. constructor; auto. Qed.

Lemma infix_reading_tree t : arities_ok t -> Forall infixish (reading t) -> infix_tree t.
Proof.
  induction t; cbn; intros Ha Hf; auto.
  - inversion Hf. cbn in *. destruct H1; congruence.
  - inversion Hf. cbn in *. destruct Ha, H1; congruence.
  - apply Forall_app in Hf. destruct Hf as [_ Hf]. inversion Hf. destruct Ha, H1; congruence.
  - apply Forall_app in Hf. destruct Hf as [Hf1 Hf]. inversion Hf. destruct Ha as (? & ? & ?). auto.
Qed.

Lemma infix_tree_arities t : infix_tree t -> arities_ok t.
Proof. induction t; cbn; intuition. Qed.

(** In an entitled infix tree every operator on the left is bounded by the
    right-open spine, and dually. *)
Lemma entitled_left o t :
  infix_tree t -> entitled t -> is_infix o ->
  Forall (fun a => binds_left a o) (right_open t) ->
  forall a, In a (ops_of t) ->
    o_prec o < o_prec a \/ (o_prec o = o_prec a /\ o_fix a = InfixLeft).
Proof.
  revert o; induction t as [| | | |o' l IHl r IHr]; cbn; try contradiction;
    intros o Hi He Ho Hf a Hin.
  destruct Hi as (Ho' & Hil & Hir), He as (Hel & Her & Hl & Hr).
  inversion_clear Hf as [|? ? Hb Hf'].
  apply in_app_iff in Hin. destruct Hin as [Hin|[<-|Hin]].
  - assert (H1 := IHl o' Hil Hel Ho' Hl a Hin).
    unfold binds_left in Hb.
    destruct (Z.eq_dec (o_prec o) (o_prec a)); [right|left];
      destruct Ho' as [E|E]; rewrite E in Hb; intuition lia.
  - unfold binds_left in Hb. destruct Ho' as [E|E]; rewrite E in Hb; [|lia].
    destruct (Z.eq_dec (o_prec o) (o_prec o')); [right; auto|left; lia].
  - exact (IHr o Hir Her Ho Hf' a Hin).
Qed.

Lemma entitled_right o t :
  infix_tree t -> entitled t -> is_infix o ->
  Forall (fun b => ~ binds_left o b) (left_open t) ->
  forall b, In b (ops_of t) ->
    o_prec o < o_prec b \/ (o_prec o = o_prec b /\ o_fix o = InfixRight).
Proof.
  revert o; induction t as [| | | |o' l IHl r IHr]; cbn; try contradiction;
    intros o Hi He Ho Hf b Hin.
  destruct Hi as (Ho' & Hil & Hir), He as (Hel & Her & Hl & Hr).
  inversion_clear Hf as [|? ? Hb Hf'].
  assert (Hself : o_prec o < o_prec o' \/ (o_prec o = o_prec o' /\ o_fix o = InfixRight)).
  { unfold binds_left in Hb. destruct Ho as [E|E]; rewrite E in *; [left; lia|].
    destruct (Z.eq_dec (o_prec o) (o_prec o')); [right; auto|left; lia]. }
  apply in_app_iff in Hin. destruct Hin as [Hin|[<-|Hin]].
  - exact (IHl o Hil Hel Ho Hf' b Hin).
  - exact Hself.
  - assert (H1 := IHr o' Hir Her Ho' Hr b Hin).
    destruct Hself as [?|[? ?]]; [left; intuition lia|].
    destruct H1 as [?|[? ?]]; [left; lia|right; split; [lia|auto]].
Qed.

Lemma right_open_ops t a : In a (right_open t) -> In a (ops_of t).
Proof.
  revert a; induction t; cbn; intros a; try tauto.
  - intuition.
  - intros [H|H]; apply in_app_iff; right; cbn; auto.
Qed.
Lemma left_open_ops t a : In a (left_open t) -> In a (ops_of t).
Proof.
  revert a; induction t; cbn; intros a; try tauto.
  - intros [H|H]; apply in_app_iff; cbn; auto.
  - intros [H|H]; apply in_app_iff; cbn; auto.
Qed.

Lemma right_open_assoc t : infix_tree t -> forall a, In a (ops_of t) -> is_infix a.
Proof.
  induction t; cbn; try contradiction. intros (Ho & Hl & Hr) a Hin.
  apply in_app_iff in Hin. destruct Hin as [Hin|[<-|Hin]]; auto.
Qed.

Lemma textbook_infix_entitled t : arities_ok t -> (textbook t <-> infix_tree t /\ entitled t).
Proof.
  induction t as [| | | |o l IHl r IHr]; cbn; intros Ha; try tauto.
  destruct Ha as (Ho & Hal & Har). specialize (IHl Hal). specialize (IHr Har).
  split.
  - intros (Tl & Tr & Hl & Hr). apply IHl in Tl. apply IHr in Tr.
    destruct Tl as [Il El], Tr as [Ir Er]. repeat split; auto.
    + apply Forall_forall. intros a Hin. apply right_open_ops in Hin.
      assert (Ha := right_open_assoc _ Il _ Hin). specialize (Hl _ Hin).
      unfold binds_left. destruct Ha as [E|E]; rewrite E in *.
      * destruct Hl as [?|[? ?]]; lia.
      * destruct Hl as [?|[? ?]]; [lia|discriminate].
    + apply Forall_forall. intros b Hin. apply left_open_ops in Hin. specialize (Hr _ Hin).
      unfold binds_left. destruct Ho as [E|E]; rewrite E in *.
      * destruct Hr as [?|[? ?]]; [lia|discriminate].
      * destruct Hr as [?|[? ?]]; lia.
  - intros ((_ & Il & Ir) & El & Er & Hl & Hr).
    repeat split; try tauto.
    + intros a. now apply entitled_left.
    + intros b. now apply entitled_right.
Qed.

Lemma textbook_arities t : textbook t -> Forall infixish (reading t) -> arities_ok t.
Proof.
  induction t; cbn; try contradiction; auto.
  intros (? & ? & ? & ?) Hf. apply Forall_app in Hf. destruct Hf as [Hf1 Hf].
  inversion Hf. auto.
Qed.

Lemma shunt_infix toks t :
  infix_expr toks ->
  shunt_tree toks = Done t <-> (reading t = toks /\ textbook t).
Proof.
  intros H. rewrite shunt_tree_iff by auto using infix_expr_filled, infix_expr_tight.
  pose proof (infix_expr_infixish _ H) as Hi. split.
  - intros (Ha & He & <-). split; auto. apply textbook_infix_entitled; auto.
    split; auto. now apply infix_reading_tree.
  - intros (<- & Ht). pose proof (textbook_arities _ Ht Hi) as Ha. split; auto.
    apply textbook_infix_entitled in Ht; tauto.
Qed.

Lemma shunt_infix_total toks :
  infix_expr toks -> exists t, shunt_tree toks = Done t.
Proof.
  intros H. destruct (shunt_tree_sound toks) as (t & E & _);
    eauto using infix_expr_filled, infix_expr_tight.
Qed.
