(** The checks on the trees of the grammar. *)
From Coq Require Import List NArith Bool Arith Lia.
Import ListNotations.
From Verif.Text Require Import Model.
From Verif.Lexer Require Import Model.
From Verif.Parser Require Import Model Spec Grammar.
From Verif.Validate Require Import Model Spec.
Open Scope nat_scope.

Lemma soup_children : forall ts, Mixed ts -> forall t, In t ts -> Blank t \/ Element t.
Proof. induction 1 as [|u ts B _ IH|u ts E _ IH]; intros t I; [destruct I| |]; (destruct I as [<- | I]; [auto|now apply IH]). Qed.
Lemma items_children : forall b ts, Items b ts -> forall t, In t ts ->
  (exists us, t = Node SOUP us /\ Soup us) \/ exists k s, t = Leaf k s /\ In k [WHITESPACE; COMMENT; COMMA; COLON].
Proof.
  assert (G : forall g, Gap g -> forall t, In t g -> exists k s, t = Leaf k s /\ In k [WHITESPACE; COMMENT; COMMA; COLON]).
  { intros g H t I. unfold Gap in H. rewrite Forall_forall in H. destruct (H t I) as (k & s & -> & K). exists k, s. split; [reflexivity|]. cbn in *. tauto. }
  induction 1 as [b|b us S|b us x g is S GA _ IH|us x g vs S GA S']; intros t I.
  - destruct I.
  - destruct I as [<- | []]. left. now exists us.
  - destruct I as [<- | [<- | I]]; [left; now exists us|right; exists COMMA, x; cbn; tauto|]. apply in_app_iff in I. destruct I as [I | I]; [right; eapply G; eassumption|now apply IH].
  - destruct I as [<- | [<- | I]]; [left; now exists us|right; exists COLON, x; cbn; tauto|]. apply in_app_iff in I. destruct I as [I | [<- | []]]; [right; eapply G; eassumption|left; now exists vs].
Qed.
Definition meta_of (t : tree) : Prop := exists us, t = Node BLOCK_META [Node SOUP us] /\ Soup us.
Definition spacer (t : tree) : Prop := exists k s, t = Leaf k s /\ In k [WHITESPACE; COMMENT; COMMA].
Lemma gap_spacer : forall g, Gap g -> forall t, In t g -> spacer t.
Proof. intros g G t I. unfold Gap in G. rewrite Forall_forall in G. destruct (G t I) as (k & s & -> & K). exists k, s. cbn in *. tauto. Qed.
Lemma separator_spacer : forall g, Separator g -> forall t, In t g -> spacer t.
Proof.
  intros g [g' G|g' x g'' G G'] t I; [eapply gap_spacer; eassumption|]. apply in_app_iff in I. destruct I as [I | [<- | I]]; [eapply gap_spacer; [exact G|exact I]|exists COMMA, x; cbn; tauto|eapply gap_spacer; [exact G'|exact I]].
Qed.
Lemma block_meta_children : forall ms, BlockMeta ms -> forall t, In t ms -> meta_of t.
Proof. intros ms [|us S] t I; [destruct I|]. destruct I as [<- | []]. now exists us. Qed.
Lemma declarations_children : forall ds, Declarations ds -> forall t, In t ds -> Declaration t \/ spacer t.
Proof.
  induction 1 as [d sep D S|d sep ds D S _ IH]; intros t I; (destruct I as [<- | I]; [auto|]); [right; eapply separator_spacer; eassumption|].
  apply in_app_iff in I. destruct I as [I | I]; [right; eapply separator_spacer; eassumption|auto].
Qed.
Lemma content_children : forall ts, Content ts -> forall t, In t ts -> meta_of t \/ Declaration t \/ spacer t.
Proof.
  intros ts [ms M|ms ds M D] t I; [left; eapply block_meta_children; eassumption|]. apply in_app_iff in I.
  destruct I as [I | I]; [left; eapply block_meta_children; eassumption|right; eapply declarations_children; eassumption].
Qed.

(** The nodes that are reached. *)
Definition backtick (t : tree) : Prop := exists x, t = Leaf BACKTICK x.
Inductive Good : tree -> Prop :=
| good_element : forall t, Element t -> Good t
| good_list : forall k x g ts y, In k [OPEN_SQUARE; OPEN_SQUARE_APPLY] -> Gap g -> Items true ts -> Good (Node LIST (Leaf k x :: g ++ ts ++ [Leaf CLOSE_SQUARE y]))
| good_block : forall k x g ts y, In k [OPEN_BRACE; OPEN_BRACE_APPLY] -> Gap g -> Content ts -> Good (Node BLOCK (Leaf k x :: g ++ ts ++ [Leaf CLOSE_BRACE y]))
| good_soup : forall ts e, (forall t, In t ts -> Blank t \/ backtick t \/ Elemental t /\ Good t) -> In e ts -> Elemental e -> Good (Node SOUP ts)
| good_declaration : forall t, Declaration t -> Good t
| good_decl_meta : forall x g ts, Gap g -> Soup ts -> Good (Node DECL_META [Node SOUP (Leaf BACKTICK x :: g ++ ts)])
| good_head : forall hs, Head hs -> Good (Node DECL_HEAD hs)
| good_body : forall bs, Body bs -> Good (Node DECL_BODY [Node SOUP bs])
| good_block_meta : forall t, meta_of t -> Good t
| good_unit : forall t, Unit t -> Good t.

Lemma element_elemental : forall t, Element t -> Elemental t.
Proof. intros t E. destruct E; eexists _, _; (split; [reflexivity|]); try (right; eexists; reflexivity); left; cbn; tauto. Qed.
Lemma mixed_good : forall pre ts e, (forall t, In t pre -> Blank t \/ backtick t) -> Mixed ts -> In e ts -> Element e -> Good (Node SOUP (pre ++ ts)).
Proof.
  intros pre ts e P M I E. apply good_soup with e; [|apply in_app_iff; now right|now apply element_elemental]. intros t It. apply in_app_iff in It. destruct It as [It | It].
  - destruct (P t It); auto.
  - destruct (soup_children ts M t It) as [B | B]; [auto|]. right. right. split; [now apply element_elemental|now apply good_element].
Qed.
Lemma soup_good : forall ts, Soup ts -> Good (Node SOUP ts).
Proof.
  intros ts [t us E M]. apply (mixed_good [] (t :: us) t); [intros ? []| |now left|exact E]. now apply mixed_element.
Qed.
Lemma mixed_app : forall a b, Mixed a -> Mixed b -> Mixed (a ++ b).
Proof. induction 1; intros; cbn; [assumption|apply mixed_blank; auto|apply mixed_element; auto]. Qed.
Lemma body_good : forall bs, Body bs -> Good (Node SOUP bs).
Proof.
  intros bs [ts t M E]. apply (mixed_good [] (ts ++ [t]) t); [intros ? []| |apply in_elt|exact E]. apply mixed_app; [exact M|]. apply mixed_element; [exact E|apply mixed_nil].
Qed.

Lemma first_in : forall n ts t, First n ts t -> of_kind n t /\ In t ts.
Proof. intros n ts t [O (a & b & -> & _)]. split; [exact O|apply in_elt]. Qed.
Ltac leafy := match goal with O : of_kind _ (Leaf _ _) |- _ => destruct O as [? O]; discriminate O end.
Lemma blank_not : forall n t, of_kind n t -> ~ Blank t.
Proof. intros n t [ts ->] (k & s & E & _). discriminate E. Qed.
Lemma gap_not : forall n g t, of_kind n t -> Gap g -> ~ In t g.
Proof. intros n g t O G I. unfold Gap in G. rewrite Forall_forall in G. exact (blank_not n t O (G t I)). Qed.
Lemma items_soup : forall b ts t, Items b ts -> of_kind SOUP t -> In t ts -> Good t.
Proof. intros b ts t I O It. destruct (items_children b ts I t It) as [(us & -> & S) | (k & s & -> & _)]; [now apply soup_good|leafy]. Qed.
Lemma content_part : forall n ts t, Content ts -> of_kind n t -> In t ts -> Good t.
Proof.
  intros n ts t C O I. destruct (content_children ts C t I) as [M | [D | (k & s & -> & _)]]; [now apply good_block_meta|now apply good_declaration|leafy].
Qed.

Ltac split_in := repeat match goal with
  | I : In _ (_ ++ _) |- _ => apply in_app_iff in I
  | I : In _ (_ :: _) |- _ => destruct I as [I | I]
  | I : In _ [] |- _ => destruct I
  | I : _ \/ _ |- _ => destruct I as [I | I]
  end.
Ltac node_leaf := match goal with H : Leaf _ _ = ?t, O : of_kind _ ?t |- _ => subst t; destruct O as [? O]; discriminate O end.

Lemma list_parts : forall k x g ts y t, Gap g -> Items true ts -> Every SOUP (Leaf k x :: g ++ ts ++ [Leaf CLOSE_SQUARE y]) t -> Good t.
Proof. intros k x g ts y t G IT [O I]. split_in; try node_leaf; [destruct (gap_not _ _ _ O G I)|]. eapply items_soup; eassumption. Qed.
Lemma block_parts : forall k x g ts y t, Gap g -> Content ts -> Part BLOCK (Leaf k x :: g ++ ts ++ [Leaf CLOSE_BRACE y]) t -> Good t.
Proof.
  intros k x g ts y t G C P.
  assert (H : exists n, of_kind n t /\ In t (Leaf k x :: g ++ ts ++ [Leaf CLOSE_BRACE y])) by (destruct P as [P | [O I]]; [apply first_in in P|]; eauto). clear P.
  destruct H as (n & O & I). split_in; try node_leaf; [destruct (gap_not _ _ _ O G I)|]. eapply content_part; eassumption.
Qed.

Lemma good_parts : forall n ts t, Good (Node n ts) -> Part n ts t -> Good t.
Proof.
  intros n ts t GD P. remember (Node n ts) as r eqn:R. destruct GD as [r E|k x g us y K G IT|k x g us y K G C|us e C _ _|r D|x g us G S|hs H|bs B|r (us & E & S)|r UN].
  - destruct E as [k s K|k s K|p x cs y F|x g us y G S|x g us y G IT|x g us y G IT|x g us y G IT|x g us y G C|x g us y G C|x g us y G S|x g ms ds y G M D]; injection R as <- <-; try contradiction P.
    + apply first_in in P. destruct P as [O I]. split_in; try node_leaf; [destruct (gap_not _ _ _ O G I)|]. subst. now apply soup_good.
    + destruct P as [O I]. split_in; try node_leaf; [destruct (gap_not _ _ _ O G I)|]. eapply items_soup; eassumption.
    + eapply list_parts; eassumption.
    + destruct P as [O [<- | []]]. eapply good_soup with (e := Node LIST _); [|left; reflexivity|eexists _, _; split; [reflexivity|cbn; tauto]].
      intros t [<- | []]. right. right. split; [eexists _, _; split; [reflexivity|cbn; tauto]|]. apply good_list; [cbn; tauto|exact G|exact IT].
    + eapply block_parts; eassumption.
    + destruct P as [O [<- | []]]. eapply good_soup with (e := Node BLOCK _); [|left; reflexivity|eexists _, _; split; [reflexivity|cbn; tauto]].
      intros t [<- | []]. right. right. split; [eexists _, _; split; [reflexivity|cbn; tauto]|]. apply good_block; [cbn; tauto|exact G|exact C].
    + apply first_in in P. destruct P as [O I]. split_in; try node_leaf; [destruct (gap_not _ _ _ O G I)|]. subst. now apply soup_good.
    + destruct P as [O I]. split_in; try node_leaf; [destruct (gap_not _ _ _ O G I)| |].
      * apply good_block_meta. eapply block_meta_children; eassumption.
      * destruct (declarations_children _ D t I) as [D' | (k & s & -> & _)]; [now apply good_declaration|leafy].
  - injection R as <- <-. eapply list_parts; eassumption.
  - injection R as <- <-. eapply block_parts; eassumption.
  - injection R as <- <-. destruct P as [I (m & vs & -> & _)]. destruct (C _ I) as [B | [B | [_ B]]]; [destruct B as (? & ? & B & _); discriminate B|destruct B as [? B]; discriminate B|exact B].
  - destruct D as [ms hs x bs M H B]. injection R as <- <-.
    assert (HI : exists n, of_kind n t /\ In t (ms ++ [Node DECL_HEAD hs; Leaf COLON x; Node DECL_BODY [Node SOUP bs]])) by (destruct P as [P | [P | P]]; apply first_in in P; eauto).
    destruct HI as (n & O & I). split_in; try node_leaf; subst; [|now apply good_head|now apply good_body]. destruct M as [|y g us G S]; [destruct I|]. destruct I as [<- | []]. now apply good_decl_meta.
  - injection R as <- <-. apply first_in in P. destruct P as [_ [<- | []]]. destruct S as [e vs E M]. change (Leaf BACKTICK x :: g ++ e :: vs) with ((Leaf BACKTICK x :: g) ++ e :: vs).
    apply mixed_good with e; [|now apply mixed_element|now left|exact E]. intros t [<- | I]; [right; now exists x|]. left. unfold Gap in G. rewrite Forall_forall in G. now apply G.
  - injection R as <- <-. destruct P.
  - injection R as <- <-. apply first_in in P. destruct P as [_ [<- | []]]. now apply body_good.
  - subst. injection E as -> ->. apply first_in in P. destruct P as [_ [<- | []]]. now apply soup_good.
  - destruct UN as [g us G C]. injection R as <- <-.
    assert (HI : exists n, of_kind n t /\ In t (g ++ us)) by (destruct P as [P | P]; [apply first_in in P|]; destruct P; eauto).
    destruct HI as (n & O & I). split_in; [destruct (gap_not _ _ _ O G I)|]. eapply content_part; eassumption.
Qed.

(** ** What the grammar gives *)

Definition neat (t : tree) : Prop := ~ of_kind ERROR_STOWAWAYS t /\ forall k s, t = Leaf k s -> ~ In k [RESERVED_OPEN; RESERVED_CLOSE; ERROR_RESERVED_CHAR].
Lemma clean_of : forall ts, (forall t, In t ts -> neat t) -> Clean ts.
Proof. intros ts H. apply Forall_forall. exact H. Qed.
Lemma neat_leaf : forall k s, ~ In k [RESERVED_OPEN; RESERVED_CLOSE; ERROR_RESERVED_CHAR] -> neat (Leaf k s).
Proof. intros k s N. split; [intros [ts E]; discriminate E|]. intros k' s' E. injection E as <- <-. exact N. Qed.
Lemma neat_node : forall n ts, n <> ERROR_STOWAWAYS -> neat (Node n ts).
Proof. intros n ts N. split; [intros [us E]; congruence|]. intros k s E. discriminate E. Qed.
Ltac neat_l := apply neat_leaf; cbn; intuition discriminate.
Ltac neat_n := apply neat_node; discriminate.
Lemma neat_blank : forall t, Blank t -> neat t.
Proof. intros t (k & s & -> & I). cbn in I. repeat (destruct I as [<- | I]; [neat_l|]). destruct I. Qed.
Lemma neat_gap : forall g t, Gap g -> In t g -> neat t.
Proof. intros g t G I. unfold Gap in G. rewrite Forall_forall in G. apply neat_blank. now apply G. Qed.
Lemma neat_elemental : forall t, Elemental t -> neat t.
Proof. intros t (n & ts & -> & [I | [p ->]]); [|neat_n]. cbn in I. repeat (destruct I as [<- | I]; [neat_n|]). destruct I. Qed.
Lemma neat_items : forall b ts t, Items b ts -> In t ts -> neat t.
Proof.
  intros b ts t IT I. destruct (items_children _ _ IT t I) as [(us & -> & _) | (k & s & -> & K)]; [neat_n|]. cbn in K. repeat (destruct K as [<- | K]; [neat_l|]). destruct K.
Qed.
Lemma neat_spacer : forall t, spacer t -> neat t.
Proof. intros t (k & s & -> & K). cbn in K. repeat (destruct K as [<- | K]; [neat_l|]). destruct K. Qed.
Lemma neat_declaration : forall t, Declaration t -> neat t.
Proof. intros t [ms hs x bs _ _ _]. neat_n. Qed.
Lemma neat_content : forall ts t, Content ts -> In t ts -> neat t.
Proof. intros ts t C I. destruct (content_children _ C t I) as [(us & -> & _) | [D | S]]; [neat_n|now apply neat_declaration|now apply neat_spacer]. Qed.
Ltac tidy := apply clean_of; intros ? ?; split_in; subst; try neat_l; try neat_n; eauto using neat_gap, neat_items, neat_content.
Lemma first_intro : forall n ts a b, Forall (fun u => ~ of_kind n u) a -> First n (a ++ Node n ts :: b) (Node n ts).
Proof. intros n ts a b F. split; [now exists ts|]. now exists a, b. Qed.

Section Accepts.
Context (U : tables) (mirrored : N -> option N) (zdt : text -> bool).

Lemma good_in_order : forall n ts, Good (Node n ts) -> Proper U mirrored zdt n ts -> InOrder U mirrored zdt n ts.
Proof.
  intros n ts GD PR. remember (Node n ts) as r eqn:R. destruct GD as [r E|k x g us y K G IT|k x g us y K G C|us e C I E|r D|x g us G S|hs H|bs B|r (us & E & S)|r UN].
  - destruct E as [k s K|k s K|p x cs y F|x g us y G S|x g us y G IT|x g us y G IT|x g us y G IT|x g us y G C|x g us y G C|x g us y G S|x g ms ds y G M D]; injection R as <- <-; try exact PR; cbn [InOrder].
    + apply clean_of. intros t I. split_in; subst; try neat_l. rewrite Forall_forall in F. specialize (F t I). destruct F; neat_n.
    + split; [tidy|]. exists y. cbn. rewrite in_app_iff. cbn. tauto.
    + split; [tidy|]. right. exists y. cbn. rewrite !in_app_iff. cbn. tauto.
    + tidy.
    + split; [tidy|]. left. eexists _, _, _. split; [cbn; reflexivity|cbn; tauto].
    + split; [tidy|]. exists y. cbn. rewrite !in_app_iff. cbn. tauto.
    + split; [tidy|]. left. eexists _, _, _. split; [cbn; reflexivity|cbn; tauto].
  - injection R as <- <-. cbn [InOrder]. apply clean_of. intros t I. split_in; subst; try neat_l; eauto using neat_gap, neat_items.
  - injection R as <- <-. cbn [InOrder]. split; [|exists y; cbn; rewrite !in_app_iff; cbn; tauto].
    apply clean_of. intros t I. split_in; subst; try neat_l; eauto using neat_gap, neat_content.
  - injection R as <- <-. cbn [InOrder]. split.
    + apply clean_of. intros t It. destruct (C t It) as [B | [[x ->] | [El _]]]; [now apply neat_blank|neat_l|now apply neat_elemental].
    + exists e. split; [exact I|]. destruct E as (m & vs & -> & _). now exists m, vs.
  - destruct D as [ms hs x bs M H B]. injection R as <- <-. cbn [InOrder]. split; [|split; [|split]].
    + apply clean_of. intros t I. split_in; subst; try neat_l; try neat_n. destruct M as [|y g us G S]; [destruct I|]. destruct I as [<- | []]. neat_n.
    + exists x. rewrite in_app_iff. cbn. tauto.
    + eexists. apply first_intro. destruct M; constructor; [|constructor]. intros [vs E]. discriminate E.
    + exists (Node DECL_BODY [Node SOUP bs]). change (ms ++ [Node DECL_HEAD hs; Leaf COLON x; Node DECL_BODY [Node SOUP bs]]) with (ms ++ [Node DECL_HEAD hs; Leaf COLON x] ++ [Node DECL_BODY [Node SOUP bs]]).
      rewrite app_assoc. apply first_intro. apply Forall_app. split; [destruct M; constructor; [|constructor]; intros [vs E]; discriminate E|]. repeat constructor; intros [vs E]; discriminate E.
  - injection R as <- <-. cbn [InOrder]. tidy.
  - injection R as <- <-. cbn [InOrder]. split; [|exact PR].
    destruct H as [m us as_ HM EL A]. apply clean_of. intros t [<- | I]; [apply neat_elemental; now apply element_elemental|]. clear - A I.
    induction A as [|u us B A IH|as_ us EL A IH]; [destruct I| |]; (destruct I as [<- | I]; [|now apply IH]); [now apply neat_blank|neat_n].
  - injection R as <- <-. cbn [InOrder]. split; [tidy|]. exists (Node SOUP bs). apply (first_intro SOUP bs [] []). constructor.
  - subst. injection E as -> ->. cbn [InOrder]. tidy.
  - destruct UN as [g us G C]. injection R as <- <-. cbn [InOrder]. tidy.
Qed.
Lemma in_order_proper : forall n ts, InOrder U mirrored zdt n ts -> Proper U mirrored zdt n ts.
Proof. intros n ts. destruct n; cbn [InOrder Proper]; try tauto. Qed.

Lemma good_reached : forall t n ts, Good t -> Reached t (Node n ts) -> Good (Node n ts).
Proof.
  intros t n ts G R. remember (Node n ts) as u eqn:E. induction R as [|m us t u P R IH]; [exact G|]. apply IH; [|exact E]. eapply good_parts; eassumption.
Qed.
End Accepts.
