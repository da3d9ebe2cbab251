(** The checks are exactly what is in order. *)
From Coq Require Import List NArith Bool Arith Lia.
Import ListNotations.
From Verif.Text Require Import Model.
From Verif.Lexer Require Import Model.
From Verif.Parser Require Import Model Spec Forests.
From Verif.Validate Require Import Model Spec.
Open Scope nat_scope.

(** ** The accessors *)

Lemma is_kind_spec : forall n t, is_kind n t = true <-> of_kind n t.
Proof.
  intros n [m ts|k s]; cbn; [destruct (node_eq_dec m n) as [-> | NE]|]; split; try discriminate; try (intros _; now exists ts); auto.
  - intros [us E]. congruence.
  - intros [us E]. discriminate E.
Qed.
Lemma is_kind_false : forall n t, is_kind n t = false <-> ~ of_kind n t.
Proof. intros n t. rewrite <- is_kind_spec. destruct (is_kind n t); split; congruence. Qed.
Lemma find_first : forall n ts t, find (is_kind n) ts = Some t <-> First n ts t.
Proof.
  intros n ts t. split.
  - induction ts as [|u ts IH]; [discriminate|]. cbn [find]. destruct (is_kind n u) eqn:K.
    + intros E. injection E as <-. split; [now apply is_kind_spec|]. exists [], ts. now split.
    + intros E. destruct (IH E) as [O (a & b & -> & F)]. split; [exact O|]. exists (u :: a), b. split; [reflexivity|]. constructor; [now apply is_kind_false|exact F].
  - intros [O (a & b & -> & F)]. induction F as [|u a N F IH]; cbn [find app].
    + rewrite (proj2 (is_kind_spec n t) O). reflexivity.
    + rewrite (proj2 (is_kind_false n u) N). exact IH.
Qed.
Lemma child_first : forall n ts us, child n ts = Some us <-> First n ts (Node n us).
Proof.
  intros n ts us. rewrite <- find_first. unfold child. split.
  - destruct (find _ _) as [[m vs|]|] eqn:F; try discriminate. intros E. injection E as ->.
    assert (O : of_kind n (Node m us)) by (apply is_kind_spec; eapply find_some; exact F). destruct O as [vs E]. injection E as -> ->. reflexivity.
  - intros ->. reflexivity.
Qed.
Lemma child_some : forall n ts, (exists us, child n ts = Some us) <-> exists t, First n ts t.
Proof.
  intros n ts. split; intros [t H].
  - exists (Node n t). now apply child_first.
  - destruct (proj1 H) as [us ->]. exists us. now apply child_first.
Qed.
Lemma child_none : forall n ts, child n ts = None -> find (is_kind n) ts = None.
Proof.
  intros n ts. unfold child. destruct (find _ _) as [[m vs|k s]|] eqn:F; try discriminate; auto. apply find_some in F. destruct F as [_ F]. discriminate F.
Qed.

Lemma is_spec : forall a b, is a b = true <-> a = b.
Proof. intros a b. unfold is. destruct (kind_eq_dec a b); split; congruence. Qed.
Lemma among_spec : forall ks k, among ks k = true <-> In k ks.
Proof.
  intros ks k. unfold among. rewrite existsb_exists. split.
  - intros (x & I & E). apply is_spec in E. now subst.
  - intros I. exists k. split; [exact I|now apply is_spec].
Qed.
Lemma token_in_some : forall ks ts k s, token_in ks ts = Some (k, s) <-> FirstLeaf ks ts k s.
Proof.
  intros ks ts k s. split.
  - induction ts as [|[n us|k' s'] ts IH]; [discriminate| |]; cbn [token_in].
    + intros E. destruct (IH E) as [I (a & b & -> & F)]. split; [exact I|]. exists (Node n us :: a), b. split; [reflexivity|]. intros k' s' [E' | I']; [discriminate E'|eauto].
    + destruct (among ks k') eqn:A.
      * intros E. injection E as <- <-. split; [now apply among_spec|]. exists [], ts. split; [reflexivity|]. intros ? ? [].
      * intros E. destruct (IH E) as [I (a & b & -> & F)]. split; [exact I|]. exists (Leaf k' s' :: a), b. split; [reflexivity|].
        intros k2 s2 [E' | I']; [|eauto]. injection E' as <- <-. rewrite <- among_spec. congruence.
  - intros [I (a & b & -> & F)]. induction a as [|[n us|k' s'] a IH]; cbn [token_in app].
    + now rewrite (proj2 (among_spec ks k) I).
    + apply IH. intros k2 s2 I2. apply (F k2 s2). now right.
    + destruct (among ks k') eqn:A; [|apply IH; intros k2 s2 I2; apply (F k2 s2); now right].
      apply among_spec in A. destruct (F k' s'); [now left|exact A].
Qed.
Lemma token_in_none : forall ks ts, token_in ks ts = None <-> forall k s, In (Leaf k s) ts -> ~ In k ks.
Proof.
  intros ks ts. split.
  - induction ts as [|[n us|k' s'] ts IH]; cbn [token_in]; intros E k s; [intros []| |].
    + intros [E' | I]; [discriminate E'|]. eapply IH; eauto.
    + destruct (among ks k') eqn:A; [discriminate E|]. intros [E' | I]; [|eapply IH; eauto]. injection E' as <- <-. rewrite <- among_spec. congruence.
  - intros H. destruct (token_in ks ts) as [[k s]|] eqn:E; [|reflexivity]. apply token_in_some in E. destruct E as [I (a & b & -> & _)]. destruct (H k s); [apply in_elt|exact I].
Qed.
Lemma has_token_spec : forall k ts, has_token k ts = true <-> Has k ts.
Proof.
  intros k ts. unfold has_token. destruct (token_in [k] ts) as [[k' s]|] eqn:E; split; try discriminate; auto.
  - intros _. apply token_in_some in E. destruct E as [[<- | []] (a & b & -> & _)]. exists s. apply in_elt.
  - intros [s I]. rewrite token_in_none in E. destruct (E k s I). now left.
Qed.

Lemma is_element_spec : forall t, is_element t = true <-> Elemental t.
Proof.
  intros t. split.
  - intros E. destruct t as [n ts|]; [|discriminate E]. exists n, ts. split; [reflexivity|]. destruct n; try discriminate E; cbn; eauto; tauto.
  - intros (n & ts & -> & [I | [p ->]]); [|reflexivity]. cbn in I. repeat (destruct I as [<- | I]; [reflexivity|]). destruct I.
Qed.
Lemma filter_choose : forall (p : tree -> bool) (P : tree -> Prop), (forall t, p t = true <-> P t) -> forall ts us, filter p ts = us <-> Choose P ts us.
Proof.
  intros p P H ts us. split.
  - revert us. induction ts as [|t ts IH]; cbn; intros us <-; [constructor|]. destruct (p t) eqn:E; [apply choose_in; [now apply H|now apply IH]|].
    apply choose_out; [rewrite <- H; congruence|now apply IH].
  - induction 1 as [|t ts us Pt C IH|t ts us N C IH]; cbn; [reflexivity| |].
    + rewrite (proj2 (H t) Pt). congruence.
    + destruct (p t) eqn:E; [|exact IH]. destruct N. now apply H.
Qed.
Lemma elements_spec : forall ts us, elements_of ts = us <-> Elements ts us.
Proof. apply filter_choose. exact is_element_spec. Qed.
Lemma branches_spec : forall ts us, branches ts = us <-> Branches ts us.
Proof. apply filter_choose. intros [n us|k s]; cbn; split; intros H; eauto; try discriminate H. destruct H as (n & us & E). discriminate E. Qed.

Lemma inner_spec : forall ts us, us <> [] -> (inner ts = us <-> Inside ts us).
Proof.
  intros ts us NE. unfold inner, Inside. split.
  - destruct (child SOUP ts) as [ss|] eqn:C; [|congruence]. intros E. exists ss. split; [now apply child_first|now apply elements_spec].
  - intros (ss & F & E). apply child_first in F. rewrite F. now apply elements_spec.
Qed.

Definition idents : list kind := [UNQUOTED_IDENTIFIER; SINGLE_QUOTE_IDENTIFIER; OPERATOR_IDENTIFIER].
Lemma first_identifier_spec : forall ts k s, identifier ts = Some (k, s) <-> first_identifier ts k s.
Proof.
  intros ts k s. unfold identifier. rewrite token_in_some. unfold FirstLeaf, first_identifier. split.
  - intros [I (a & b & -> & F)]. exists a, b. split; [reflexivity|]. split; [now exists k, s|]. apply Forall_forall. intros t It (k' & s' & -> & I'). exact (F k' s' It I').
  - intros (a & b & -> & (k' & s' & E & I) & F). injection E as <- <-. split; [exact I|]. exists a, b. split; [reflexivity|]. intros k' s' It I'. rewrite Forall_forall in F. apply (F _ It). now exists k', s'.
Qed.
Lemma normal_spec : forall t s, normal_identifier t = Some s <-> Named t s.
Proof.
  intros t s. unfold Named. split.
  - destruct t as [[]|]; try discriminate. cbn [normal_identifier]. destruct (identifier ts) as [[k x]|] eqn:E; [|discriminate]. apply first_identifier_spec in E.
    intros H. destruct k; try discriminate H; injection H as ->; eexists _, _; (split; [reflexivity|split; [exact E|cbn; tauto]]).
  - intros (ts & k & -> & F & I). apply first_identifier_spec in F. cbn [normal_identifier]. rewrite F. cbn in I. destruct I as [<- | [<- | []]]; reflexivity.
Qed.
Lemma operator_spec : forall t s, operator_identifier t = Some s <-> Operator t s.
Proof.
  intros t s. unfold Operator. split.
  - destruct t as [[]|]; try discriminate. cbn [operator_identifier]. destruct (identifier ts) as [[k x]|] eqn:E; [|discriminate]. apply first_identifier_spec in E.
    intros H. destruct k; try discriminate H; injection H as ->; eexists; (split; [reflexivity|exact E]).
  - intros (ts & -> & F). apply first_identifier_spec in F. cbn [operator_identifier]. now rewrite F.
Qed.
Lemma normal_not_operator : forall t s, normal_identifier t = Some s -> operator_identifier t = None.
Proof.
  intros t s. destruct t as [[]|]; try discriminate. cbn [normal_identifier operator_identifier]. destruct (identifier ts) as [[k x]|]; [|discriminate]. destruct k; try discriminate; reflexivity.
Qed.

(** ** Heads *)

Lemma param_spec : forall t, valid_param_pattern t = true <-> Param t.
Proof.
  intros t. unfold Param. split.
  - destruct t as [[]|]; try discriminate; cbn [valid_param_pattern]; intros H; try (right; right; now exists ts); try (right; left; now exists ts).
    destruct (normal_identifier _) as [x|] eqn:E; [|discriminate]. left. exists x. now apply normal_spec.
  - intros [[s N] | [[ts ->] | [ts ->]]]; try reflexivity. apply normal_spec in N. destruct t as [[]|]; try discriminate N. cbn [valid_param_pattern]. now rewrite N.
Qed.
Lemma bad_params_spec : forall args, flat_map bad_param args = [] <-> forall ss, In (Node SOUP ss) args -> exists e, Elements ss [e] /\ Param e.
Proof.
  intros args. induction args as [|t args IH]; cbn [flat_map]; [split; [intros _ ss []|reflexivity]|]. split.
  - intros E. apply app_eq_nil in E. destruct E as [E1 E2]. intros ss [-> | I]; [|apply IH; assumption]. cbn [bad_param] in E1. unfold singleton in E1.
    destruct (elements_of ss) as [|e [|]] eqn:EL; try discriminate E1. exists e. split; [now apply elements_spec|]. apply param_spec. destruct (valid_param_pattern e); [reflexivity|discriminate E1].
  - intros H. rewrite (proj2 IH) by (intros ss I; apply H; now right). rewrite app_nil_r. destruct t as [[]|]; try reflexivity. destruct (H ts (or_introl eq_refl)) as (e & E & P).
    cbn [bad_param]. unfold singleton. rewrite (proj2 (elements_spec _ _) E), (proj2 (param_spec e) P). reflexivity.
Qed.
Lemma bracket_spec : forall ts k, classify_bracket ts = inl k <-> BracketHead ts k.
Proof.
  intros ts k. unfold classify_bracket. split.
  - destruct (inner ts) as [|t [|]] eqn:I; try discriminate. destruct (is_kind BLOCK t) eqn:B.
    + intros E. injection E as <-. apply bracket_block with t; [apply inner_spec; [discriminate|exact I]|now apply is_kind_spec].
    + destruct (child SOUP ts) as [ss|] eqn:C; [|discriminate]. intros E. injection E as <-. apply bracket_pair with t; [now apply child_first| |now apply is_kind_false].
      unfold inner in I. rewrite C in I. now apply elements_spec.
  - intros [t I B | t ss F E B].
    + apply inner_spec in I; [|discriminate]. rewrite I, (proj2 (is_kind_spec _ _) B). reflexivity.
    + assert (I : inner ts = [t]) by (apply inner_spec; [discriminate|now exists ss]). rewrite I, (proj2 (is_kind_false _ _) B). apply child_first in F. now rewrite F.
Qed.
Lemma classify_sound : forall hs k, classify hs = inl k -> Heads hs k.
Proof.
  intros hs k. unfold classify. destruct (branches hs) as [|t [|u [|]]] eqn:B; try discriminate.
  - apply branches_spec in B. destruct t as [[]|]; try discriminate.
    + destruct (normal_identifier _) as [x|] eqn:N; [|discriminate]. intros E. injection E as <-. eapply heads_property; [exact B|now apply normal_spec].
    + unfold classify_operator. destruct (inner ts) as [|t [|u [|v [|]]]] eqn:I; try discriminate; apply inner_spec in I; try discriminate.
      * destruct (operator_identifier t) as [o|] eqn:O.
        { intros E. injection E as <-. eapply heads_nullary; [exact B|exact I|now apply operator_spec]. }
        destruct t as [[]|]; try discriminate. intros E. apply bracket_spec in E. eapply heads_paren_bracket; eassumption.
      * destruct (operator_identifier t) as [o|] eqn:O.
        { destruct (normal_identifier u) as [x|] eqn:N; [|discriminate]. intros E. injection E as <-. eapply heads_prefix; [exact B|exact I|now apply operator_spec|now apply normal_spec]. }
        destruct (normal_identifier t) as [x|] eqn:N; [|discriminate]. destruct (operator_identifier u) as [o|] eqn:O2; [|discriminate]. intros E. injection E as <-.
        eapply heads_postfix; [exact B|exact I|now apply normal_spec|now apply operator_spec].
      * destruct (normal_identifier t) as [x|] eqn:N; [|discriminate]. destruct (operator_identifier u) as [o|] eqn:O; [|discriminate]. destruct (normal_identifier v) as [y|] eqn:N2; [|discriminate].
        intros E. injection E as <-. eapply heads_binary; [exact B|exact I|now apply normal_spec|now apply operator_spec|now apply normal_spec].
    + intros E. apply bracket_spec in E. eapply heads_bracket; eassumption.
  - assert (G : match normal_identifier t with
                | Some f => match u with Node ARG_TUPLE args => match flat_map bad_param args with [] => inl (Function f args) | es => inr es end | _ => inr [MalformedHead] end
                | None => inr [MalformedHead] end = inl k -> Heads hs k).
    { destruct (normal_identifier t) as [f|] eqn:N; [|discriminate]. destruct u as [[]|]; try discriminate. destruct (flat_map bad_param ts) eqn:P; [|discriminate]. intros E. injection E as <-.
      eapply heads_function; [apply branches_spec; exact B|now apply normal_spec|now apply bad_params_spec]. }
    intros E. apply G. rewrite <- E. destruct t as [[]|]; reflexivity.
  - destruct t as [[]|]; discriminate.
Qed.
Lemma classify_complete : forall hs k, Heads hs k -> classify hs = inl k.
Proof.
  intros hs k H.
  assert (PE : forall ps t us, Branches hs [Node PAREN_EXPR ps] -> Inside ps (t :: us) -> classify hs = classify_operator ps /\ inner ps = t :: us).
  { intros ps t us B I. unfold classify. apply branches_spec in B. rewrite B. split; [reflexivity|]. apply inner_spec; [discriminate|exact I]. }
  destruct H as [t x B N|t f args B N P|ps t o B I O|ps t u o x B I O N|ps t u x o B I N O|ps t u v x o y B I N O N2|bs k B K|ps bs k B I K].
  - apply branches_spec in B. apply normal_spec in N. unfold classify. rewrite B. destruct t as [[]|]; try discriminate N. now rewrite N.
  - apply branches_spec in B. apply normal_spec in N. apply bad_params_spec in P. unfold classify. rewrite B, N, P. destruct t as [[]|]; try discriminate N. reflexivity.
  - destruct (PE _ _ _ B I) as [-> E]. unfold classify_operator. rewrite E. apply operator_spec in O. now rewrite O.
  - destruct (PE _ _ _ B I) as [-> E]. unfold classify_operator. rewrite E. apply operator_spec in O. apply normal_spec in N. now rewrite O, N.
  - destruct (PE _ _ _ B I) as [-> E]. unfold classify_operator. rewrite E. apply operator_spec in O. apply normal_spec in N. now rewrite (normal_not_operator _ _ N), N, O.
  - destruct (PE _ _ _ B I) as [-> E]. unfold classify_operator. rewrite E. apply operator_spec in O. apply normal_spec in N, N2. now rewrite N, O, N2.
  - apply branches_spec in B. unfold classify. rewrite B. now apply bracket_spec.
  - destruct (PE _ _ _ B I) as [-> E]. unfold classify_operator. rewrite E. cbn [operator_identifier]. now apply bracket_spec.
Qed.

(** ** Complaints *)

Section Sound.
Context (U : tables) (mirrored : N -> option N) (zdt : text -> bool).
Notation validate := (validate U mirrored zdt).
Notation InOrder := (InOrder U mirrored zdt).

Definition first_complaints (n : node) (ts : list tree) : list complaint := match find (is_kind n) ts with Some t => validate t | None => nil end.
Definition every_complaint (p : tree -> bool) (ts : list tree) : list complaint := flat_map validate (filter p ts).
Lemma first_fix : forall k ts,
  (fix first (ts : list tree) : list complaint := match ts with [] => [] | t :: ts => if is_kind k t then validate t else first ts end) ts = first_complaints k ts.
Proof. intros k ts. unfold first_complaints. induction ts as [|t ts IH]; [reflexivity|]. cbn [find]. destruct (is_kind k t); [reflexivity|exact IH]. Qed.
Lemma every_fix : forall (p : tree -> bool) (ts : list tree),
  (fix every (ts : list tree) : list complaint := match ts with [] => [] | t :: ts => (if p t then validate t else []) ++ every ts end) ts = every_complaint p ts.
Proof. intros p ts. unfold every_complaint. induction ts as [|t ts IH]; [reflexivity|]. cbn [filter]. destruct (p t); cbn [flat_map]; rewrite IH; reflexivity. Qed.

Lemma first_nil : forall n ts, first_complaints n ts = [] <-> forall t, First n ts t -> validate t = [].
Proof.
  intros n ts. unfold first_complaints. destruct (find (is_kind n) ts) as [t|] eqn:F.
  - split; [|intros H; apply H, find_first, F]. intros E u Fu. apply find_first in Fu. congruence.
  - split; [|reflexivity]. intros _ t Ft. apply find_first in Ft. congruence.
Qed.
Lemma every_nil : forall p (P : tree -> Prop) ts, (forall t, p t = true <-> P t) -> (every_complaint p ts = [] <-> forall t, In t ts /\ P t -> validate t = []).
Proof.
  intros p P ts H. unfold every_complaint. induction ts as [|t ts IH]; [split; [intros _ t [[] _]|reflexivity]|]. cbn [filter]. split.
  - intros E u [[-> | I] Pu].
    + rewrite (proj2 (H u) Pu) in E. cbn [flat_map] in E. now apply app_eq_nil in E.
    + destruct (p t); [cbn [flat_map] in E; apply app_eq_nil in E; destruct E as [_ E]|]; (apply IH; [exact E|now split]).
  - intros E. assert (T : flat_map validate (filter p ts) = []) by (apply IH; intros u [I Pu]; apply E; split; [now right|exact Pu]).
    destruct (p t) eqn:K; [|exact T]. cbn [flat_map]. rewrite T, app_nil_r. apply E. split; [now left|now apply H].
Qed.
Lemma every_kind_nil : forall n ts, every_complaint (is_kind n) ts = [] <-> forall t, Every n ts t -> validate t = [].
Proof. intros n ts. rewrite (every_nil _ (of_kind n)) by (intros t; apply is_kind_spec). split; intros H t [A B]; apply H; now split. Qed.

Lemma app_nil : forall (a b : list complaint), a ++ b = [] <-> a = [] /\ b = [].
Proof. intros a b. split; [apply app_eq_nil|intros [-> ->]; reflexivity]. Qed.
Lemma require_nil : forall b c, require b c = [] <-> b = true.
Proof. intros [|] c; split; try discriminate; reflexivity. Qed.
Lemma clean_nil : forall ts, error_children ts = [] <-> Clean ts.
Proof.
  intros ts. unfold error_children, Clean. induction ts as [|t ts IH]; [split; [constructor|reflexivity]|]. cbn [flat_map]. rewrite app_nil, Forall_cons_iff, IH.
  apply and_iff_compat_r. destruct t as [n us|k s]; cbn.
  - split.
    + intros E. split; [|intros ? ? E'; discriminate E']. intros [vs E']. injection E' as -> _. discriminate E.
    + intros [N _]. destruct n; try reflexivity. destruct N. now exists us.
  - split.
    + intros E. split; [intros [vs E']; discriminate E'|]. intros k' s' E' I. injection E' as <- <-. repeat (destruct I as [<- | I]; [discriminate E|]). destruct I.
    + intros [_ N]. specialize (N k s eq_refl). destruct k; try reflexivity; exfalso; apply N; tauto.
Qed.
Lemma non_empty_nil : forall ts, non_empty ts = [] <-> exists t, In t ts /\ exists m us, t = Node m us.
Proof.
  intros ts. unfold non_empty. destruct (branches ts) as [|t us] eqn:B; cbn.
  - split; [discriminate|]. intros (t & I & m & us & ->). assert (F : In (Node m us) (branches ts)) by (apply filter_In; now split). rewrite B in F. destruct F.
  - split; [|reflexivity]. intros _. assert (F : In t (branches ts)) by (rewrite B; now left). apply filter_In in F. destruct F as [I K]. exists t. split; [exact I|]. destruct t as [m vs|]; [now exists m, vs|discriminate K].
Qed.
Lemma first_token_leaves : forall t, first_token t = option_map fst (hd_error (leaves t)).
Proof.
  intros t. induction t as [k s|n ts IH] using tree_rect'; [reflexivity|]. cbn [first_token leaves]. induction IH as [|t ts H _ IH]; [reflexivity|]. rewrite H. cbn [flat_map].
  destruct (leaves t) as [|w ws]; [exact IH|reflexivity].
Qed.
Lemma juxtaposed_spec : forall ts, juxtaposed ts = true <-> Juxtaposed ts.
Proof.
  intros ts. unfold juxtaposed, Juxtaposed. rewrite first_token_leaves. cbn [leaves]. destruct (flat_map leaves ts) as [|[k s] ws]; cbn.
  - split; [discriminate|]. intros (k & s & ws & E & _). discriminate E.
  - split.
    + intros E. exists k, s, ws. split; [reflexivity|]. destruct k; try discriminate E; tauto.
    + intros (k' & s' & ws' & E & I). injection E as <- <- <-. repeat (destruct I as [<- | I]; [reflexivity|]). destruct I.
Qed.
Lemma between_quotes_spec : forall s m, between_quotes s = Some m <-> s = [116; 34]%N ++ m ++ [34]%N.
Proof.
  intros s m. unfold between_quotes. split.
  - destruct s as [|c [|q s]]; try discriminate. destruct (N.eqb c 116 && N.eqb q 34)%bool eqn:E; [|discriminate]. apply andb_true_iff in E. destruct E as [E1 E2]. apply N.eqb_eq in E1, E2. subst.
    destruct (rev s) as [|q' r] eqn:R; [discriminate|]. destruct (N.eqb q' 34) eqn:Q; [|discriminate]. apply N.eqb_eq in Q. subst. intros H. injection H as <-.
    apply (f_equal (@rev _)) in R. rewrite rev_involutive in R. cbn in R. now rewrite R.
  - intros ->. cbn [app]. rewrite rev_app_distr. cbn. now rewrite rev_involutive.
Qed.
Lemma literal_nil : forall ts, literal_complaints zdt ts = [] <-> Literally zdt ts.
Proof.
  intros ts. unfold literal_complaints, Literally, literal_value. destruct (token_in _ ts) as [[k s]|] eqn:T.
  - pose proof T as T'. apply token_in_some in T. destruct (unclosed_quote (mkTok k 0 s)) eqn:Q; split; try discriminate.
    + intros (k' & s' & F & Q' & _). apply token_in_some in F. rewrite F in T'. injection T' as -> ->. congruence.
    + intros E. exists k, s. split; [exact T|]. split; [exact Q|]. intros m -> S. apply between_quotes_spec in S. rewrite S in E. now apply require_nil in E.
    + intros (k' & s' & F & _ & Z). apply token_in_some in F. rewrite F in T'. injection T' as -> ->. destruct k; try reflexivity. destruct (between_quotes s) as [m|] eqn:B; [|reflexivity].
      apply between_quotes_spec in B. apply require_nil. now apply Z.
  - split; [discriminate|]. intros (k & s & F & _). apply token_in_some in F. congruence.
Qed.
Lemma name_nil : forall ts, name_complaints ts = [] <-> Naming ts.
Proof.
  intros ts. unfold name_complaints, Naming, identifier. destruct (token_in _ ts) as [[k s]|] eqn:T.
  - pose proof T as T'. apply token_in_some in T. destruct (unclosed_quote (mkTok k 0 s)) eqn:Q; split; try discriminate; try reflexivity.
    + intros (k' & s' & F & Q'). apply token_in_some in F. rewrite F in T'. injection T' as -> ->. congruence.
    + intros _. exists k, s. now split.
  - split; [discriminate|]. intros (k & s & F & _). apply token_in_some in F. congruence.
Qed.
Lemma bracket_char_spec : forall k ts c, bracket_char k ts = Some c <-> exists s, FirstLeaf [k] ts k (c :: s).
Proof.
  intros k ts c. unfold bracket_char. split.
  - destruct (token_in [k] ts) as [[k' [|c' s]]|] eqn:T; try discriminate. intros E. injection E as ->. apply token_in_some in T. exists s. destruct (proj1 T) as [<- | []]. exact T.
  - intros [s F]. apply token_in_some in F. now rewrite F.
Qed.
Lemma bracket_nil : forall ts, snd (bracket_complaints U mirrored ts) = [] <-> Paired U mirrored ts.
Proof.
  intros ts. unfold bracket_complaints, Paired. destruct (bracket_char BRACKET_OPEN ts) as [o|] eqn:O.
  - split.
    + intros E o' s F. assert (O' : bracket_char BRACKET_OPEN ts = Some o') by (apply bracket_char_spec; now exists s). rewrite O in O'. injection O' as <-.
      destruct (is_bracket_open U o) eqn:B; [|discriminate E]. split; [reflexivity|]. intros c s' C. assert (C' : bracket_char BRACKET_CLOSE ts = Some c) by (apply bracket_char_spec; now exists s').
      cbn [snd] in E. rewrite C' in E. unfold close_for_open in E. rewrite B in E. destruct (mirrored o) as [c'|]; [|discriminate E]. destruct (N.eqb c' c) eqn:EQ; [|discriminate E]. apply N.eqb_eq in EQ. congruence.
    + intros H. apply bracket_char_spec in O. destruct O as [s F]. destruct (H o s F) as [B M]. rewrite B. cbn [snd]. destruct (bracket_char BRACKET_CLOSE ts) as [c|] eqn:C; [|reflexivity].
      apply bracket_char_spec in C. destruct C as [s' C]. unfold close_for_open. rewrite B, (M c s' C), N.eqb_refl. reflexivity.
  - split; [|reflexivity]. intros _ o s F. assert (O' : bracket_char BRACKET_OPEN ts = Some o) by (apply bracket_char_spec; now exists s). congruence.
Qed.
Lemma bracket_on : forall ts, snd (bracket_complaints U mirrored ts) = [] -> fst (bracket_complaints U mirrored ts) = true.
Proof. intros ts. unfold bracket_complaints. destruct (bracket_char _ _) as [o|]; [|reflexivity]. destruct (is_bracket_open U o); [reflexivity|discriminate]. Qed.

Lemma classify_errors : forall hs, classify hs <> inr [].
Proof.
  assert (B : forall ts, classify_bracket ts <> inr []).
  { intros ts. unfold classify_bracket. destruct (inner ts) as [|t [|]]; try discriminate. destruct (is_kind BLOCK t); [discriminate|]. destruct (child SOUP ts); discriminate. }
  assert (O : forall ts, classify_operator ts <> inr []).
  { intros ts. unfold classify_operator. destruct (inner ts) as [|t [|u [|v [|]]]]; try discriminate.
    - destruct (operator_identifier t); [discriminate|]. destruct t as [[]|]; try discriminate. apply B.
    - destruct (operator_identifier t), (normal_identifier u), (normal_identifier t), (operator_identifier u); discriminate.
    - destruct (normal_identifier t), (operator_identifier u), (normal_identifier v); discriminate. }
  assert (F : forall t u, match normal_identifier t with
                | Some f => match u with Node ARG_TUPLE args => match flat_map bad_param args with [] => inl (Function f args) | es => inr es end | _ => inr [MalformedHead] end
                | None => inr [MalformedHead] end <> inr []).
  { intros t u. destruct (normal_identifier t); [|discriminate]. destruct u as [[]|]; try discriminate. destruct (flat_map bad_param ts); discriminate. }
  intros hs. unfold classify. destruct (branches hs) as [|t [|u [|]]]; try discriminate.
  - destruct t as [[]|]; try discriminate; [destruct (normal_identifier _); discriminate|apply O|apply B].
  - destruct t as [[]|]; apply F.
  - destruct t as [[]|]; discriminate.
Qed.
Lemma needed : forall n c ts (P : Prop), (match child n ts with Some _ => first_complaints n ts | None => [c] end = [] <-> P) <->
  ((exists t, First n ts t) /\ (forall t, First n ts t -> validate t = []) <-> P).
Proof.
  intros n c ts P. rewrite <- child_some. destruct (child n ts) as [us|] eqn:C.
  - rewrite first_nil. split; intros H; rewrite <- H; [split; [intros [_ G]; exact G|intros G; split; [now exists us|exact G]]|split; [intros G; split; [now exists us|exact G]|intros [_ G]; exact G]].
  - split; intros H; rewrite <- H; (split; [intros E; try discriminate E; destruct E as [[us E] _]; discriminate E|intros E; try discriminate E; destruct E as [[us E] _]; discriminate E]).
Qed.

(** One node: it is in order, and so are its parts. *)
Lemma validate_node : forall n ts, validate (Node n ts) = [] <-> InOrder n ts /\ forall t, Part n ts t -> validate t = [].
Proof.
  intros n ts. cbn [Model.validate]. rewrite ?first_fix, ?every_fix.
  destruct n; cbn [Spec.InOrder Part]; rewrite ?app_nil, ?first_nil, ?every_kind_nil, ?require_nil, ?has_token_spec, ?clean_nil, ?non_empty_nil, ?literal_nil, ?name_nil.
  all: try (intuition eauto; fail).
  - assert (H : match child DECL_HEAD ts with Some _ => first_complaints DECL_HEAD ts ++ require (has_token COLON ts) MissingDeclarationColon | None => [MalformedHead] end = [] <->
        ((exists t, First DECL_HEAD ts t) /\ (forall t, First DECL_HEAD ts t -> validate t = [])) /\ Has COLON ts).
    { rewrite <- child_some. destruct (child DECL_HEAD ts) as [us|].
      - rewrite app_nil, first_nil, require_nil, has_token_spec. split; [intros [A B]; split; [split; [now exists us|exact A]|exact B]|intros [[_ A] B]; now split].
      - split; [discriminate|]. intros [[[us E] _] _]. discriminate E. }
    rewrite H, (proj2 (needed DECL_BODY EmptyDeclarationBody ts _) (iff_refl _)). intuition eauto.
  - split.
    + intros [E C]. destruct (classify ts) as [k|es] eqn:K; [|subst; destruct (classify_errors _ K)]. split; [split; [exact C|]|intros t []]. exists k. now apply classify_sound.
    + intros [[C [k K]] _]. apply classify_complete in K. rewrite K. now split.
  - rewrite (proj2 (needed SOUP EmptyDeclarationBody ts _) (iff_refl _)). tauto.
  - rewrite (every_nil is_element Elemental) by (intros t; apply is_element_spec). tauto.
  - rewrite orb_true_iff, juxtaposed_spec, has_token_spec. tauto.
  - rewrite <- bracket_nil, <- first_nil. pose proof (bracket_on ts) as ON. destruct (bracket_complaints U mirrored ts) as [on es]. cbn [fst snd] in *. rewrite app_nil. split; intros [-> F]; rewrite (ON eq_refl) in *; auto.
  - rewrite <- bracket_nil, <- every_kind_nil. pose proof (bracket_on ts) as ON. destruct (bracket_complaints U mirrored ts) as [on es]. cbn [fst snd] in *. rewrite app_nil. split; intros [-> F]; rewrite (ON eq_refl) in *; auto.
Qed.

Lemma part_in : forall n ts t, Part n ts t -> In t ts.
Proof.
  assert (F : forall n ts t, First n ts t -> In t ts) by (intros n ts t [_ (a & b & -> & _)]; apply in_elt).
  assert (E : forall n ts t, Every n ts t -> In t ts) by (intros n ts t [_ H]; exact H).
  intros n ts t. destruct n; cbn [Part]; intuition eauto.
Qed.
Lemma validate_reached : forall t, validate t = [] <-> forall n ts, Reached t (Node n ts) -> InOrder n ts.
Proof.
  intros t. induction t as [k s|n ts IH] using tree_rect'.
  - split; [|reflexivity]. intros _ n ts R. inversion R.
  - rewrite validate_node. rewrite Forall_forall in IH. split.
    + intros [O P] m us R. inversion R as [|? ? t ? PT RT]; subst; [exact O|]. apply (IH t (part_in _ _ _ PT)); [now apply P|exact RT].
    + intros H. split; [apply H, reached_here|]. intros t PT. apply IH; [exact (part_in _ _ _ PT)|]. intros m us R. apply H. eapply reached_below; eassumption.
Qed.
End Sound.
