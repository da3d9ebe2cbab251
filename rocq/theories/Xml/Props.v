(** * Reading XML *)
From Coq Require Import List Bool NArith Lia.
From Verif.Xml Require Import Model Spec.
Import ListNotations.

Section Proofs.
  Variable space : N -> bool.
  Notation spaces := (Forall (fun c => space c = true)).

  Lemma trim_start_spec s : exists a, s = a ++ trim_start space s /\ spaces a /\
    forall c, hd_error (trim_start space s) = Some c -> space c = false.
  Proof.
    induction s as [|c s (a & H1 & H2 & H3)]; cbn.
    - exists []. repeat split; auto. discriminate.
    - destruct (space c) eqn:E.
      + exists (c :: a). cbn. rewrite <- H1. auto.
      + exists []. repeat split; auto. cbn. intros d H. congruence.
  Qed.
  Lemma trim_start_spaces a s : spaces a -> trim_start space (a ++ s) = trim_start space s.
  Proof. induction 1 as [|c a H _ IH]; cbn; auto. rewrite H. exact IH. Qed.

  (** ** Trimming *)
  Lemma trim_stripped s : stripped space s (trim space s).
  Proof.
    unfold trim. destruct (trim_start_spec s) as (a & H1 & H2 & H3).
    destruct (trim_start_spec (rev (trim_start space s))) as (b & G1 & G2 & G3).
    set (u := trim_start space s) in *. set (w := trim_start space (rev u)) in *.
    assert (Hu : u = rev w ++ rev b). { rewrite <- rev_app_distr, <- G1, rev_involutive. reflexivity. }
    exists a, (rev b). rewrite <- Hu. repeat split; auto.
    - apply Forall_app. split; auto. apply Forall_rev; auto.
    - intros c Hc. apply H3. rewrite Hu. destruct (rev w); [discriminate|exact Hc].
    - rewrite rev_involutive. auto.
  Qed.
  Lemma head_not_space t : (forall c, hd_error t = Some c -> space c = false) -> trim_start space t = t.
  Proof. destruct t as [|c t]; cbn; auto. intros H. rewrite H; auto. Qed.
  Lemma trim_start_all a : spaces a -> trim_start space a = [].
  Proof. intros H. rewrite <- (app_nil_r a) at 1. rewrite trim_start_spaces; auto. Qed.
  Lemma stripped_trim s t : stripped space s t -> trim space s = t.
  Proof.
    intros (a & b & -> & H & H1 & H2). apply Forall_app in H as [Ha Hb]. unfold trim.
    rewrite trim_start_spaces by auto. destruct t as [|c t].
    - cbn. rewrite (trim_start_all b) by auto. reflexivity.
    - rewrite (head_not_space ((c :: t) ++ b)) by (intros d Hd; apply H1; exact Hd).
      rewrite rev_app_distr, trim_start_spaces by (apply Forall_rev; auto).
      rewrite head_not_space by auto. apply rev_involutive.
  Qed.

  (** ** Attributes *)
  Lemma insert_new k v l : ~ In k (map fst l) -> insert k v l = l ++ [(k, v)].
  Proof.
    induction l as [|[k' v'] l IH]; cbn; auto. intros H. unfold text_eqb.
    destruct (list_eq_dec N.eq_dec k' k); [subst; tauto|]. rewrite IH; auto.
  Qed.
  Lemma insert_all l : forall acc, NoDup (map fst (acc ++ l)) ->
    fold_left (fun acc kv => insert (fst kv) (snd kv) acc) l acc = acc ++ l.
  Proof.
    induction l as [|[k v] l IH]; intros acc H; cbn; [symmetry; apply app_nil_r|].
    rewrite insert_new.
    - rewrite IH; rewrite <- app_assoc; auto.
    - rewrite map_app in H. cbn in H. apply NoDup_remove_2 in H. intros X. apply H, in_or_app. auto.
  Qed.
  Lemma block_distinct attrs : NoDup (map (fun a : qname * text => snd (fst a)) attrs) ->
    block (map (fun a => (snd (fst a), snd a)) attrs) = Block (map (fun a => (snd (fst a), snd a)) attrs).
  Proof. intros H. unfold block. f_equal. apply (insert_all _ []). cbn. rewrite map_map. exact H. Qed.

  (** ** Trees *)
  Lemma run_app s es es' s' : run space s es = Going s' -> run space s (es ++ es') = run space s' es'.
  Proof.
    revert s. induction es as [|e es IH]; cbn; intros s H; [congruence|].
    destruct (step space s e); try discriminate. auto.
  Qed.

  Definition adds (xs : list value) (p : proto) : proto := mkProto (p_name p) (p_attrs p) (p_content p ++ xs).
  Lemma adds_nil p : adds [] p = p.
  Proof. destruct p; unfold adds; cbn. rewrite app_nil_r. reflexivity. Qed.
  Lemma adds_adds xs ys p : adds ys (adds xs p) = adds (xs ++ ys) p.
  Proof. unfold adds; cbn. rewrite app_assoc. reflexivity. Qed.

  Lemma flush_shown p st b xs : shown space b xs -> flush space (mkState (p :: st) b) = Some (mkState (adds xs p :: st) []).
  Proof.
    unfold flush. intros H; cbn [buf stack]; inversion H as [s S E1 E2|s t S Ht E1 E2]; subst.
    - rewrite (stripped_trim _ _ S), adds_nil. destruct b; reflexivity.
    - rewrite (stripped_trim _ _ S). destruct b as [|c b].
      + apply stripped_trim in S. cbn in S. congruence.
      + destruct t; [congruence|]. reflexivity.
  Qed.

  Scheme data_mut := Minimality for data Sort Prop
    with contents_mut := Minimality for contents Sort Prop.

  Lemma tree_read n v : data space n v -> simple n -> forall s,
    run space s (written n) =
    match flush space s with
    | Some s => match stack s with p :: st => Going (mkState (add v p :: st) []) | [] => Done v end
    | None => Failed
    end.
  Proof.
    revert n v.
    apply (data_mut space
      (fun n v => simple n -> forall s, run space s (written n) =
         match flush space s with
         | Some s => match stack s with p :: st => Going (mkState (add v p :: st) []) | [] => Done v end
         | None => Failed end)
      (fun b ns xs => fold_right (fun c acc => simple c /\ acc) True ns -> forall p st,
         run space (mkState (p :: st) b) (flat_map written ns ++ [End]) = finish (complete (adds xs p)) st)).
    - intros name attrs content xs _ IH [ND Sc] s. cbn [written run step].
      destruct (flush space s) as [s'|] eqn:F; auto.
      assert (B : buf s' = []).
      { unfold flush in F. destruct (buf s) eqn:E; [congruence|]. destruct (trim _ _); [injection F as <-; reflexivity|].
        destruct (stack s); [discriminate|]. injection F as <-. reflexivity. }
      rewrite B, (IH Sc). unfold to_proto_element, complete, adds. cbn. rewrite (block_distinct _ ND).
      unfold finish. destruct (stack s'); reflexivity.
    - intros name attrs ND s. cbn [written run step]. cbn in ND. destruct (flush space s) as [s'|]; auto.
      unfold to_proto_element, complete. cbn. rewrite (block_distinct _ ND).
      unfold finish. destruct (stack s'); reflexivity.
    - intros b xs Hs _ p st. cbn [flat_map app run step]. rewrite (flush_shown _ _ _ _ Hs). cbn [stack].
      destruct (finish _ st); reflexivity.
    - intros b xs n v ns ys Hs _ IHn _ IHc Sc p st. cbn [fold_right] in Sc. destruct Sc as [Sn Sc].
      cbn [flat_map]. rewrite <- app_assoc. erewrite run_app.
      2:{ rewrite (IHn Sn), (flush_shown _ _ _ _ Hs). cbn [stack]. reflexivity. }
      rewrite (IHc Sc). f_equal. change (add v (adds xs p)) with (adds [v] (adds xs p)). rewrite !adds_adds; reflexivity.
    - intros b s ns xs _ IH [_ Sc] p st. cbn [flat_map written app run step stack buf]. apply IH; auto.
    - intros b s ns xs _ IH [_ Sc] p st. cbn [flat_map written app run step stack buf]. apply IH; auto.
    - intros b s ns xs _ _ [[] _].
    - intros b ns xs _ IH [_ Sc] p st. cbn [flat_map written app run step]. apply IH; auto.
  Qed.

  Lemma flush_spaces b : spaces b -> exists b', flush space (mkState [] b) = Some (mkState [] b').
  Proof.
    intros H. unfold flush. cbn [buf stack]. destruct b; [eauto|]. rewrite (stripped_trim _ []); [eauto|].
    exists (n :: b), []. cbn [app]. rewrite !app_nil_r. repeat split; auto; discriminate.
  Qed.
End Proofs.

(** ** C108: an XML document is read as its tree

    Trimming removes exactly the white space around a text. *)
Theorem C108_trim space s t : trim space s = t <-> stripped space s t.
Proof. split; [intros <-; apply trim_stripped|apply stripped_trim]. Qed.
Print Assumptions C108_trim.

(** Every element has data. *)
Section Total.
  Variable space : N -> bool.
  Lemma shown_any s : exists xs, shown space s xs.
  Proof.
    destruct (trim space s) as [|c t] eqn:E.
    - exists []. apply Shown_none, C108_trim, E.
    - exists [Str (c :: t)]. apply Shown_some; [apply C108_trim, E|discriminate].
  Qed.
  Lemma contents_any : forall ns, Forall (fun n => element n -> exists v, data space n v) ns ->
    forall b, exists xs, contents space b ns xs.
  Proof.
    induction 1 as [|n ns Hn _ IH]; intros b.
    - destruct (shown_any b) as (xs & H). exists xs. constructor. exact H.
    - destruct n as [name attrs content|name attrs|s|s|s|].
      1,2: destruct (Hn Logic.I) as (v & Hv); destruct (shown_any b) as (xs & Hs); destruct (IH []) as (ys & Hy);
        exists (xs ++ v :: ys); constructor; assumption.
      1,2,3: destruct (IH (b ++ s)) as (xs & Hx); exists xs; constructor; assumption.
      destruct (IH b) as (xs & Hx). exists xs. constructor. assumption.
  Qed.
  Fixpoint data_any (n : node) : element n -> exists v, data space n v.
  Proof.
    destruct n as [name attrs content|name attrs|s|s|s|]; intros He; try destruct He.
    - assert (H : Forall (fun n => element n -> exists v, data space n v) content).
      { clear - data_any. revert content. fix go 1. intros [|c l]; constructor; [apply data_any|apply go]. }
      destruct (contents_any content H []) as (xs & Hx). eexists. constructor. exact Hx.
    - eexists. constructor.
  Qed.
End Total.
Theorem C108_total space n : element n -> exists v, data space n v.
Proof. apply data_any. Qed.
Print Assumptions C108_total.

(** A document is read as the data of its root element: whatever remarks and white
    space come before it, and whatever comes after it. *)
Theorem C108_tree_partial space before root v after :
  Forall (prolog space) before -> simple root -> data space root v ->
  parse space (before ++ written root ++ after) = Done v.
Proof.
  intros Hb Sr D. unfold parse.
  enough (G : forall b, Forall (fun c => space c = true) b ->
    run space (mkState [] b) (before ++ written root ++ after) = Done v) by (apply G; constructor).
  induction Hb as [|e es He _ IH]; intros b Sb; cbn [app].
  - destruct (flush_spaces space b Sb) as (b' & F). clear - D Sr F.
    pose proof (tree_read space root v D Sr (mkState [] b)) as R. rewrite F in R. cbn [stack] in R.
    revert R. generalize (mkState [] b) as s. generalize (written root) as es.
    induction es as [|e es IH]; intros s; cbn; [discriminate|]. destruct (step space s e); auto.
  - cbn [run]. destruct e; cbn in He; try tauto; cbn [step stack buf].
    + apply IH. apply Forall_app; auto.
    + apply IH. auto.
Qed.
Print Assumptions C108_tree_partial.

(** Text before the root element, other than white space, is an error; so are unknown
    references and what the reader refuses, as long as the root is not complete. *)
Theorem C108_no_root space s name attrs after t c :
  stripped space s t -> hd_error t = Some c ->
  parse space (Text s :: Start name attrs :: after) = Failed /\
  parse space (Text s :: Empty name attrs :: after) = Failed.
Proof.
  intros S Hc. apply stripped_trim in S. unfold parse. cbn [run step stack buf app]. unfold flush. cbn [stack buf].
  destruct s as [|x s]; [cbn in S; subst; discriminate|]. rewrite S. destruct t; [discriminate|]. auto.
Qed.
Print Assumptions C108_no_root.
Theorem C108_refused space before s after :
  parse space before = Going s ->
  parse space (before ++ Bad :: after) = Failed /\ parse space (before ++ Ref None :: after) = Failed.
Proof. intros H. unfold parse in *. rewrite !(run_app space _ _ _ _ H). auto. Qed.
Print Assumptions C108_refused.

(** Non-vacuity: [<a k="v"> x<b/>&amp;y </a>] after a remark. *)
Definition blank (c : N) : bool := (c =? 32)%N.
Definition sample : node :=
  Element ([], [97%N]) [(([112%N], [107%N]), [118%N])]
    [Characters [32; 120]%N; Single ([], [98%N]) []; Reference [38]%N; Remark; Characters [121; 32]%N].
Definition sample_data : value :=
  VList [Sym [97%N]; Block [([107%N], [118%N])]; Str [120]%N; VList [Sym [98%N]; Block []]; Str [38; 121]%N].
Example sample_read :
  Forall (prolog blank) [Other; Text [32%N]] /\ simple sample /\ data blank sample sample_data /\
  parse blank ([Other; Text [32%N]] ++ written sample) = Done sample_data.
Proof.
  split; [repeat constructor|]. split; [cbn; repeat constructor; auto; intros []|]. split; [|reflexivity].
  apply (Data_element blank ([], [97%N]) [(([112%N], [107%N]), [118%N])]).
  apply Contents_characters.
  change [Str [120]%N; VList [Sym [98%N]; Block []]; Str [38; 121]%N]
    with ([Str [120]%N] ++ VList [Sym [98%N]; Block []] :: [Str [38; 121]%N]).
  apply Contents_node.
  - apply Shown_some; [apply C108_trim; reflexivity|discriminate].
  - apply (Data_single blank ([], [98%N])).
  - apply Contents_reference, Contents_remark, Contents_characters, Contents_end.
    apply Shown_some; [apply C108_trim; reflexivity|discriminate].
Qed.
Example refused_sample : exists s, parse blank [Start ([], [97%N]) []] = Going s.
Proof. eexists. reflexivity. Qed.
Example no_root_sample : stripped blank [32; 120]%N [120]%N.
Proof. apply C108_trim. reflexivity. Qed.

(** Refuted: that reading ends.  Nothing is done at the end of the input, where the
    reader says so again and again: a document without an element, or one whose root is
    not closed, is read for ever. *)
Theorem C108_end_refuted :
  (forall space, forall k, exists s, parse space (repeat Eof k) = Going s) /\
  (forall space name attrs content k,
     fold_right (fun c acc => match c with Characters _ | Reference _ | Remark => acc | _ => False end) True content ->
     exists s, parse space (Start name attrs :: flat_map written content ++ repeat Eof k) = Going s).
Proof.
  assert (E : forall space k s, run space s (repeat Eof k) = Going s).
  { intros space k s. induction k; cbn; auto. }
  split.
  - intros space k. unfold parse. rewrite E. eauto.
  - intros space name attrs content k. unfold parse. cbn. generalize (to_proto_element name attrs) as p. intros p.
    generalize (@nil N) as b. induction content as [|c content IH]; intros b H; cbn.
    + rewrite E. eauto.
    + destruct c; cbn in *; try tauto; apply IH; auto.
Qed.
Print Assumptions C108_end_refuted.

(** Refuted: that the text of a CDATA section is read. *)
Theorem C108_cdata_refuted :
  ~ (forall space root v, element root -> data space root v -> parse space (written root) = Done v).
Proof.
  intros H. specialize (H blank (Element ([], [97%N]) [] [Section_ [120%N]])
    (VList [Sym [97%N]; Block []; Str [120%N]]) I).
  assert (D : data blank (Element ([], [97%N]) [] [Section_ [120%N]]) (VList [Sym [97%N]; Block []; Str [120%N]])).
  { apply (Data_element blank ([], [97%N]) []). apply Contents_section, Contents_end.
    apply Shown_some; [apply C108_trim; reflexivity|discriminate]. }
  specialize (H D). discriminate H.
Qed.
Print Assumptions C108_cdata_refuted.

(** Refuted: that every attribute is read.  Of two attributes that differ in their
    prefix only, the first is lost. *)
Theorem C108_prefix_refuted :
  ~ (forall space name attrs, NoDup (map fst attrs) ->
       parse space [Empty name attrs] = Done (VList [Sym (snd name); Block (map (fun a => (snd (fst a), snd a)) attrs)])).
Proof.
  intros H. specialize (H blank ([], [97%N]) [(([112%N], [107%N]), [49%N]); (([113%N], [107%N]), [50%N])]).
  assert (ND : NoDup (map fst [(([112%N], [107%N]), [49%N]); (([113%N], [107%N]), [50%N])])).
  { repeat constructor; cbn; intuition discriminate. }
  specialize (H ND). discriminate H.
Qed.
Print Assumptions C108_prefix_refuted.
