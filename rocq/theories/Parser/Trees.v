(** The parser gives back the trees of the grammar: elements, lists and blocks. *)
From Coq Require Import List NArith ZArith Bool Arith Lia.
Import ListNotations.
From Verif.Text Require Import Model.
From Verif.Lexer Require Import Model.
From Verif.Parser Require Import Model Spec Halts Forests Sinks Parses Builds Grammar Contents Balance Grammatical.
Open Scope nat_scope.

Lemma mixed_split : forall ts, Mixed ts -> exists g ts', ts = g ++ ts' /\ Gap g /\ (ts' = [] \/ Soup ts').
Proof.
  intros ts M. induction M as [|t ts B M IH|t ts E M IH].
  - exists [], []. repeat split; [constructor|left; reflexivity].
  - destruct IH as (g & ts' & -> & G & H). exists (t :: g), ts'. repeat split; [constructor; assumption|exact H].
  - exists [], (t :: ts). repeat split; [constructor|right; constructor; assumption].
Qed.
Lemma soup_or_solid : forall ts r, ts = [] \/ Soup ts -> solid r -> solid (tokens_of ts ++ r).
Proof. intros ts r [-> | S] R; [exact R|apply soup_solid; exact S]. Qed.
Lemma items_solid : forall b ts r, Items b ts -> solid r -> solid (tokens_of ts ++ r).
Proof.
  intros b ts r H R. destruct H as [b|b ts S|b ts x g is S G H|ts x g ts' S G S']; [exact R|..];
    cbn [flat_map leaves]; rewrite <- ?app_assoc; apply soup_solid; exact S.
Qed.

Definition elements_at (n : nat) : Prop := forall e r used op ch, Element e -> runs (element n) used (leaves e ++ r) (op, ch) true (rev (leaves e) ++ used) r (op, ch ++ [e]).

Lemma no_element : forall n u r s, ends r -> runs (element n) u r s false u r s.
Proof.
  intros [|n] u r s E; [left; reflexivity|]. cbn [element]. apply r_peek. destruct r as [|[k x] r]; cbn [hd_error]; [apply r_ret; reflexivity|].
  assert (A : runs atom u ((k, x) :: r) s false u ((k, x) :: r) s).
  { unfold atom. apply r_peek. cbn [hd_error]. destruct (E _ _ eq_refl) as [K | [K | [K | [K | [K | [K | []]]]]]]; cbn in K; subst k; apply r_ret; reflexivity. }
  destruct (E _ _ eq_refl) as [K | [K | [K | [K | [K | [K | []]]]]]]; cbn in K; subst k; exact A.
Qed.

Lemma puts_soup : forall n ts r, (forall ts r, Mixed ts -> ends r -> puts (soup_loop n) tt ts r) -> Soup ts -> ends r -> puts (soup (soup_loop n)) tt [Node SOUP ts] r.
Proof.
  intros n ts r H S E used op ch NE. unfold soup. apply r_start. cbn [flat_map leaves]. rewrite app_nil_r.
  eapply r_puts; [apply H; [destruct S; apply mixed_element; assumption|exact E]|discriminate|]. apply r_no_trivia; [discriminate|apply ends_solid; exact E|]. apply r_last; reflexivity.
Qed.
Lemma hd_first : forall (a : list word) k s l r, a = (k, s) :: l -> hd_error (a ++ r) = Some (k, s).
Proof. intros a k s l r ->. reflexivity. Qed.
Lemma puts_try_soup : forall n ts r, (forall ts r, ts = [] \/ Soup ts -> ends r -> puts (elements n) tt ts r) -> Soup ts -> ends r -> puts (try_soup (elements n)) true [Node SOUP ts] r.
Proof.
  intros n ts r H S E used op ch NE. unfold try_soup. apply r_peek. cbn [flat_map leaves]. rewrite app_nil_r.
  assert (F : exists k s l, tokens_of ts = (k, s) :: l /\ starter k = true).
  { destruct S as [t ts' EL M]. destruct (element_first t EL) as (k & s & l & L & K). cbn [flat_map]. rewrite L. cbn. eauto. }
  destruct F as (k & s & l & F & K).
  match goal with |- runs (if ?b then _ else _) _ _ _ _ _ _ _ => replace b with false end.
  2:{ match goal with |- context [hd_error ?x] => replace (hd_error x) with (Some (k, s)) end; [destruct k; try discriminate K; reflexivity|].
      symmetry. exact (hd_first (tokens_of ts) k s l r F). }
  apply r_start. eapply r_puts; [apply H; [right; exact S|exact E]|discriminate|]. apply r_no_trivia; [discriminate|apply ends_solid; exact E|]. apply r_finish, r_ret; reflexivity.
Qed.
Lemma no_soup : forall m k y r u s, In k [CLOSE_PAREN; CLOSE_SQUARE] -> runs (try_soup m) u ((k, y) :: r) s false u ((k, y) :: r) s.
Proof. intros m k y r u s K. unfold try_soup. apply r_peek. cbn [hd_error]. destruct K as [<- | [<- | []]]; apply r_ret; reflexivity. Qed.

Lemma ends_close : forall k y r, In k [CLOSE_PAREN; CLOSE_SQUARE; CLOSE_BRACE; BRACKET_CLOSE; COMMA; COLON] -> ends ((k, y) :: r).
Proof. intros k y r K w l E. injection E as <- _. exact K. Qed.
Lemma closes_ends : forall c r, closes c r -> ends r.
Proof. intros c r [K [-> | (y & l & ->)]] w l' E; [discriminate E|]. injection E as <- _. destruct K as [<- | [<- | []]]; cbn; tauto. Qed.

Ltac put l := eapply r_puts; [apply l|discriminate|].
Ltac tidy := cbn [leaves flat_map]; repeat (rewrite ?flat_map_app, <- ?app_assoc; cbn [flat_map leaves app]); rewrite ?app_nil_r; repeat (rewrite <- ?app_assoc; cbn [app]).
Ltac fin := repeat (rewrite ?flat_map_app, ?rev_app_distr, <- ?app_assoc, ?app_nil_r; cbn [flat_map leaves app rev]); reflexivity.

Lemma closing : forall A (f : unit -> parser A) k x st u r op ch a u' r' s', op <> [] -> runs (f tt) ((k, x) :: u) r (op, ch ++ [Leaf k x]) a u' r' s' ->
  runs (b <- close_or_recover k st;; f b) u ((k, x) :: r) (op, ch) a u' r' s'.
Proof.
  intros A f k x st u r op ch a u' r' s' NE H. eapply r_bind; [|exact H]. unfold close_or_recover. apply r_expect; [exact NE|]. apply r_ret; reflexivity.
Qed.

Theorem exact : forall n, elements_at n /\ (forall ts r, ts = [] \/ Soup ts -> ends r -> puts (elements n) tt ts r) /\ (forall ts r, Mixed ts -> ends r -> puts (soup_loop n) tt ts r) /\
  (forall b ts k y r, Items b ts -> In k [CLOSE_PAREN; CLOSE_SQUARE] -> puts (items n b) tt ts ((k, y) :: r)) /\ loops n.
Proof.
  induction n as [|n (IE & IL & IS & II & IB)].
  { split; [intros e r used op ch _; left; reflexivity|]. split; [intros ts r _ _ used op ch _; left; reflexivity|]. split; [intros ts r _ _ used op ch _; left; reflexivity|].
    split; [intros b ts k y r _ _ used op ch _; left; reflexivity|intros close its r used _ _; left; reflexivity]. }
  split; [|split; [|split; [|split]]].
  - intros e r used op ch E. destruct E as [k s K|k s K|p x cs y F|x g ts y G S|x g ts y G S|x g ts y G S|x g ts y G S|x g ts y G S|x g ts y G S|x g ts y G S|x g ms ds y G BM DS].
    + cbn [element]. apply r_peek. cbn [leaves flat_map app hd_error].
      assert (A : runs atom used ((k, s) :: r) (op, ch) true ((k, s) :: used) r (op, ch ++ [Node NAME [Leaf k s]])).
      { unfold atom. apply r_peek. cbn [hd_error]. destruct K as [<- | [<- | [<- | []]]]; (apply r_leaf, r_ret; reflexivity). }
      destruct K as [<- | [<- | [<- | []]]]; exact A.
    + cbn [element]. apply r_peek. cbn [leaves flat_map app hd_error].
      assert (A : runs atom used ((k, s) :: r) (op, ch) true ((k, s) :: used) r (op, ch ++ [Node LITERAL [Leaf k s]])).
      { unfold atom. apply r_peek. cbn [hd_error]. destruct K as [<- | [<- | [<- | [<- | [<- | [<- | [<- | []]]]]]]]; (apply r_leaf, r_ret; reflexivity). }
      destruct K as [<- | [<- | [<- | [<- | [<- | [<- | [<- | []]]]]]]]; exact A.
    + cbn [element]. apply r_peek. cbn [leaves flat_map app hd_error]. unfold atom. apply r_peek. cbn [hd_error]. eapply r_bind; [|apply r_ret; reflexivity].
      unfold string_pattern. apply r_start, r_take; [discriminate|]. eapply r_bind; [apply (puts_pattern p cs y r _ F); discriminate|]. apply r_last; [fin|reflexivity|reflexivity].
    + cbn [element]. apply r_peek. tidy. cbn [hd_error].
      apply r_start, r_expect; [discriminate|]. put puts_trivia; [exact G|apply soup_solid; exact S|].
      rewrite <- (app_nil_r (tokens_of ts)). change (tokens_of ts ++ []) with (tokens_of [Node SOUP ts]).
      put puts_soup; [exact IS|exact S|apply ends_close; cbn; tauto|]. apply closing; [discriminate|]. apply r_finish, r_ret; [fin|reflexivity|fin].
    + cbn [element]. apply r_peek. tidy. cbn [hd_error].
      apply r_start, r_expect; [discriminate|]. put puts_trivia; [exact G|eapply items_solid; [exact S|apply solid_cons; reflexivity]|].
      put II; [exact S|cbn; tauto|]. apply r_no_trivia; [discriminate|apply solid_cons; reflexivity|]. apply r_expect; [discriminate|]. eapply r_bind; [apply r_ret; reflexivity|]. apply r_finish, r_ret; [fin|reflexivity|fin].
    + cbn [element]. apply r_peek. tidy. cbn [hd_error].
      apply r_start, r_take; [discriminate|]. put puts_trivia; [exact G|eapply items_solid; [exact S|apply solid_cons; reflexivity]|].
      put II; [exact S|cbn; tauto|]. apply r_no_trivia; [discriminate|apply solid_cons; reflexivity|]. apply closing; [discriminate|]. apply r_finish, r_ret; [fin|reflexivity|fin].
    + cbn [element]. apply r_peek. tidy. cbn [hd_error].
      apply r_start, r_start, r_start, r_expect; [discriminate|]. put puts_trivia; [exact G|eapply items_solid; [exact S|apply solid_cons; reflexivity]|].
      put II; [exact S|cbn; tauto|]. apply r_no_trivia; [discriminate|apply solid_cons; reflexivity|]. apply r_expect; [discriminate|]. apply r_finish, r_finish, r_finish, r_ret; [fin|reflexivity|fin].
    + cbn [element]. apply r_peek. tidy. cbn [hd_error].
      apply r_start, r_expect; [discriminate|]. put puts_trivia; [exact G|apply content_solid; [exact S|apply solid_cons; reflexivity]|].
      put puts_content; [exact IB|exact S|split; [cbn; tauto|right; eauto]|]. apply r_no_trivia; [discriminate|apply solid_cons; reflexivity|]. apply closing; [discriminate|]. apply r_finish, r_ret; [fin|reflexivity|fin].
    + cbn [element]. apply r_peek. tidy. cbn [hd_error].
      apply r_start, r_start, r_start, r_expect; [discriminate|]. put puts_trivia; [exact G|apply content_solid; [exact S|apply solid_cons; reflexivity]|].
      put puts_content; [exact IB|exact S|split; [cbn; tauto|right; eauto]|]. apply r_no_trivia; [discriminate|apply solid_cons; reflexivity|]. apply r_expect; [discriminate|]. apply r_finish, r_finish, r_finish, r_ret; [fin|reflexivity|fin].
    + cbn [element]. apply r_peek. tidy. cbn [hd_error]. apply r_look. cbn [tl]. rewrite soup_colon by assumption.
      eapply r_bind.
      * apply r_start, r_expect; [discriminate|]. put puts_trivia; [exact G|apply soup_solid; exact S|].
        rewrite <- (app_nil_r (tokens_of ts)). change (tokens_of ts ++ []) with (tokens_of [Node SOUP ts]).
        apply puts_soup; [exact IS|exact S|apply ends_close; cbn; tauto|discriminate].
      * apply r_accept; [discriminate|]. eapply r_bind; [apply r_ret; reflexivity|]. apply r_finish, r_ret; [fin|reflexivity|fin].
    + assert (C : Content (ms ++ ds)) by (constructor; assumption). cbn [element]. apply r_peek.
      replace (leaves (Node BRACKET_BLOCK (Leaf BRACKET_OPEN x :: g ++ (ms ++ ds) ++ [Leaf BRACKET_CLOSE y])) ++ r) with ((BRACKET_OPEN, x) :: tokens_of g ++ tokens_of (ms ++ ds) ++ (BRACKET_CLOSE, y) :: r).
      2:{ cbn [leaves flat_map]. rewrite (flat_map_app leaves g), (flat_map_app leaves (ms ++ ds)). cbn [flat_map leaves app]. rewrite <- !app_assoc. reflexivity. }
      cbn [hd_error]. apply r_look. cbn [tl]. rewrite declarations_colon by assumption.
      eapply r_bind.
      * apply r_start, r_expect; [discriminate|]. put puts_trivia; [exact G|apply content_solid; [exact C|apply solid_cons; reflexivity]|].
        put puts_content; [exact IB|exact C|split; [cbn; tauto|right; eauto]|].
        right. exists []. split; [reflexivity|constructor].
      * apply r_accept; [discriminate|]. eapply r_bind; [apply r_ret; reflexivity|]. apply r_finish, r_ret; [fin|reflexivity|fin].
  - intros ts r H E used op ch NE. cbn [elements]. destruct H as [-> | [t ts' EL M]].
    + eapply r_bind; [apply no_element; exact E|]. apply r_ret; [reflexivity..|rewrite app_nil_r; reflexivity].
    + destruct (mixed_split ts' M) as (g & us & -> & G & H). cbn [flat_map]. rewrite flat_map_app, <- !app_assoc.
      eapply r_bind; [apply IE; exact EL|]. eapply r_puts; [apply puts_trivia; [exact G|apply soup_or_solid; [exact H|apply ends_solid; exact E]]|exact NE|].
      specialize (IL us r H E (rev (tokens_of g) ++ rev (leaves t) ++ used) op ((ch ++ [t]) ++ g) NE).
      replace (rev (leaves t ++ tokens_of g ++ tokens_of us) ++ used) with (rev (tokens_of us) ++ rev (tokens_of g) ++ rev (leaves t) ++ used) by fin.
      replace (ch ++ t :: g ++ us) with (((ch ++ [t]) ++ g) ++ us) by fin. exact IL.
  - intros ts r M E used op ch NE. cbn [soup_loop]. apply r_peek. destruct M as [|t ts (k & s & -> & K) M|t ts EL M].
    + cbn [flat_map app]. destruct r as [|[k x] r]; cbn [hd_error]; [apply r_ret; [reflexivity..|rewrite app_nil_r; reflexivity]|].
      pose proof (ends_solid _ E _ _ eq_refl) as S. cbn in S. rewrite S.
      eapply r_bind; [apply no_element; exact E|]. apply r_ret; [reflexivity..|rewrite app_nil_r; reflexivity].
    + cbn [flat_map leaves app hd_error]. apply trivial_in in K. rewrite K. apply r_take; [exact NE|].
      specialize (IS ts r M E ((k, s) :: used) op (ch ++ [Leaf k s]) NE). rewrite <- app_assoc in IS. cbn [app rev]. rewrite <- (app_assoc (rev _)). exact IS.
    + destruct (element_first t EL) as (k & s & l & L & K). cbn [flat_map]. rewrite <- app_assoc.
      replace (hd_error (leaves t ++ tokens_of ts ++ r)) with (Some (k, s)) by (symmetry; exact (hd_first (leaves t) k s l _ L)). rewrite (starter_solid k K).
      eapply r_bind; [apply IE; exact EL|].
      specialize (IS ts r M E (rev (leaves t) ++ used) op (ch ++ [t]) NE). rewrite <- app_assoc in IS. cbn [app] in IS. rewrite rev_app_distr, <- app_assoc. exact IS.
  - intros b ts k y r H K used op ch NE. cbn [items]. destruct H as [b|b ts S|b ts x g is S G H|ts x g ts' S G S'].
    + eapply r_bind; [apply no_soup; exact K|]. apply r_ret; [reflexivity..|rewrite app_nil_r; reflexivity].
    + assert (E : ends ((k, y) :: r)) by (apply ends_close; destruct K as [<- | [<- | []]]; cbn; tauto).
      eapply r_puts; [apply puts_try_soup; [exact IL|exact S|exact E]|exact NE|].
      apply r_reject; [intros w l W; injection W as <- _; destruct K as [<- | [<- | []]]; discriminate|].
      destruct b; [|apply r_ret; reflexivity]. apply r_reject; [intros w l W; injection W as <- _; destruct K as [<- | [<- | []]]; discriminate|]. apply r_ret; reflexivity.
    + change (Node SOUP ts :: Leaf COMMA x :: g ++ is) with ([Node SOUP ts] ++ Leaf COMMA x :: g ++ is). rewrite flat_map_app, <- app_assoc.
      change (tokens_of (Leaf COMMA x :: g ++ is)) with ((COMMA, x) :: tokens_of (g ++ is)). rewrite <- app_comm_cons, (flat_map_app leaves g), <- (app_assoc (tokens_of g)).
      eapply r_puts; [apply puts_try_soup; [exact IL|exact S|apply ends_close; cbn; tauto]|exact NE|].
      apply r_accept; [exact NE|].
      eapply r_puts; [apply puts_trivia; [exact G|eapply items_solid; [exact H|apply solid_cons; destruct K as [<- | [<- | []]]; reflexivity]]|exact NE|].
      specialize (II b is k y r H K (rev (tokens_of g) ++ (COMMA, x) :: rev (tokens_of [Node SOUP ts]) ++ used) op (((ch ++ [Node SOUP ts]) ++ [Leaf COMMA x]) ++ g) NE).
      match goal with |- runs _ _ _ _ _ ?u _ (op, ?c) => match type of II with runs _ _ _ _ _ ?u' _ (op, ?c') => replace u with u' by fin; replace c with c' by fin end end. exact II.
    + change (Node SOUP ts :: Leaf COLON x :: g ++ [Node SOUP ts']) with ([Node SOUP ts] ++ Leaf COLON x :: g ++ [Node SOUP ts']). rewrite flat_map_app, <- app_assoc.
      change (tokens_of (Leaf COLON x :: g ++ [Node SOUP ts'])) with ((COLON, x) :: tokens_of (g ++ [Node SOUP ts'])). rewrite <- app_comm_cons, (flat_map_app leaves g), <- (app_assoc (tokens_of g)).
      eapply r_puts; [apply puts_try_soup; [exact IL|exact S|apply ends_close; cbn; tauto]|exact NE|].
      apply r_reject; [intros w l W; injection W as <- _; discriminate|]. apply r_accept; [exact NE|].
      eapply r_puts; [apply puts_trivia; [exact G|]|exact NE|].
      { cbn [flat_map leaves]. rewrite app_nil_r. apply soup_solid. exact S'. }
      eapply r_puts; [apply puts_try_soup; [exact IL|exact S'|apply ends_close; destruct K as [<- | [<- | []]]; cbn; tauto]|exact NE|]. apply r_ret; [fin|reflexivity|fin].
  - intros close its r used P K. cbn [block_loop]. apply f_peek.
    pose proof (closes_solid _ _ K) as KS.
    assert (REST : forall its' u, Pieces its' -> feeding (trivia;; block_loop n close) u (tokens_of its' ++ r) tt (rev (tokens_of its') ++ u) r its').
    { intros its' u P'. destruct (pieces_split its' r P' KS) as (g & its2 & -> & G & P2 & S2). rewrite flat_map_app, rev_app_distr, <- !app_assoc.
      eapply f_bind; [apply f_trivia; assumption|]. apply IB; assumption. }
    assert (TAKE : forall k x ts, Pieces ts -> feeding (take;; trivia;; block_loop n close) used ((k, x) :: tokens_of ts ++ r) tt (rev ((k, x) :: tokens_of ts) ++ used) r (Leaf k x :: ts)).
    { intros k x ts P'. change (Leaf k x :: ts) with ([Leaf k x] ++ ts). rewrite rev_snoc. eapply f_bind; [apply f_take|apply REST; exact P']. }
    destruct P as [|t ts E P|t ts (k & s & -> & B) P|x ts P|x ts P|x ts N NE P].
    + cbn [flat_map app]. destruct K as [KI [-> | (y & l & ->)]]; cbn [hd_error]; [apply f_ret|].
      destruct KI as [<- | [<- | []]]; apply f_ret.
    + destruct (element_first t E) as (k & s & l & L & KK). cbn [flat_map]. rewrite <- app_assoc.
      replace (hd_error (leaves t ++ tokens_of ts ++ r)) with (Some (k, s)) by (symmetry; exact (hd_first (leaves t) k s l _ L)).
      replace (is k COLON) with false by (destruct k; try discriminate KK; reflexivity).
      replace (among [BACKTICK; COMMA; WHITESPACE; COMMENT] k) with false by (destruct k; try discriminate KK; reflexivity).
      replace (is k close) with false by (destruct K as [[<- | [<- | []]] _]; destruct k; try discriminate KK; reflexivity).
      rewrite rev_app_distr, <- app_assoc. apply (f_bind bool unit (element n) (fun b => if b then block_loop n close else ret tt) used _ true (rev (leaves t) ++ used) (tokens_of ts ++ r) [t]).
      * destruct (IE t (tokens_of ts ++ r) used [] [] E) as [H | (os & H & O)]; [left; exact H|right]. exists os. split; [exact H|]. intros s0 D.
        cbn [app] in O. rewrite (tree_sink os t O s0 D). destruct (element_node t E) as (nd & us & -> & _). reflexivity.
      * apply IB; [exact P|exact K].
    + cbn [flat_map leaves app hd_error]. destruct B as [<- | [<- | []]]; apply TAKE; exact P.
    + cbn [flat_map leaves app hd_error]. apply TAKE; exact P.
    + cbn [flat_map leaves app hd_error]. apply TAKE; exact P.
    + cbn [flat_map leaves app hd_error]. rewrite is_refl.
      assert (BC : forall u, (block_colon;; block_loop n close) u ((COLON, x) :: tokens_of ts ++ r) = (take;; trivia;; block_loop n close) u ((COLON, x) :: tokens_of ts ++ r)).
      { intros u. assert (NC : forall z l, tokens_of ts ++ r <> (COLON, z) :: l).
        { intros z l H. destruct (tokens_of ts) as [|w ws] eqn:T.
          - destruct K as [KI [-> | (y & l' & ->)]]; [discriminate H|]. cbn in H. injection H as -> _ _. destruct KI as [KI | [KI | []]]; discriminate KI.
          - cbn in H. injection H as -> _. exact (N z ws eq_refl). }
        assert (BT : block_colon u ((COLON, x) :: tokens_of ts ++ r) = (take;; trivia) u ((COLON, x) :: tokens_of ts ++ r)).
        { unfold block_colon. destruct (tokens_of ts ++ r) as [|[k z] l]; [reflexivity|]. destruct k; try reflexivity. destruct (NC z l eq_refl). }
        unfold bind at 1. rewrite BT. unfold bind. cbn [take]. destruct (trivia _ _) as [a os es u1 r1| |]; [|reflexivity..]. destruct (block_loop n close u1 r1); reflexivity. }
      unfold feeding. rewrite BC. apply TAKE; exact P.
Qed.

Lemma build_exact : forall n ts, build (leaves (Node n ts)) (flat (Node n ts)) [] = Some (Node n ts).
Proof.
  intros n ts. unfold build. cbn [surplus]. destruct (list_eq_dec _ _ _) as [_ | NE].
  - pose proof (builder_flats [Node n ts] [] [] [] []) as B. cbn [flat_map] in B. rewrite !app_nil_r in B. rewrite B. reflexivity.
  - exfalso. apply NE. pose proof (flats_kinds [Node n ts]) as K. cbn [flat_map] in K. rewrite !app_nil_r in K. exact K.
Qed.
Lemma finished_exact : forall (m : parser unit) n ts, runs m [] (leaves (Node n ts)) ([], []) tt (rev (leaves (Node n ts))) [] ([], [Node n ts]) ->
  finished (leaves (Node n ts)) (m [] (leaves (Node n ts))) <> OutOfFuel -> finished (leaves (Node n ts)) (m [] (leaves (Node n ts))) = Parsed (Node n ts) [].
Proof.
  intros m n ts [H | (os & H & O)] NF; rewrite H in *; [destruct (NF eq_refl)|]. cbn [finished]. apply osteps_events in O. cbn [fst snd opened app flat_map] in O. rewrite app_nil_r in O. rewrite O.
  rewrite build_exact. reflexivity.
Qed.

Lemma unit_exact : forall t, Unit t -> parse_unit (leaves t) = Parsed t [].
Proof.
  intros t [g ts G C]. apply finished_exact; [|apply unit_halts]. cbn [leaves]. rewrite flat_map_app. set (n := enough _).
  apply r_start. eapply r_puts; [apply puts_trivia; [exact G|]|discriminate|].
  { rewrite <- (app_nil_r (tokens_of ts)). apply content_solid; [exact C|]. intros w l E. discriminate E. }
  rewrite <- (app_nil_r (tokens_of ts)) at 1. eapply r_puts; [apply puts_content; [apply exact|exact C|split; [left; reflexivity|left; reflexivity]]|discriminate|].
  apply r_no_trivia; [discriminate|intros w l E; discriminate E|]. apply r_last; [|reflexivity|reflexivity]. rewrite rev_app_distr, app_nil_r. reflexivity.
Qed.
Lemma expression_exact : forall t, Expression t -> parse_expression (leaves t) = Parsed t [].
Proof.
  intros t [ts M]. apply finished_exact; [|apply expression_halts]. cbn [leaves]. set (n := enough _). rewrite <- (app_nil_r (tokens_of ts)) at 1.
  unfold soup. apply r_start. eapply r_puts; [apply exact; [exact M|intros w l E; discriminate E]|discriminate|].
  apply r_no_trivia; [discriminate|intros w l E; discriminate E|]. apply r_last; [|reflexivity|reflexivity]. apply app_nil_r.
Qed.
