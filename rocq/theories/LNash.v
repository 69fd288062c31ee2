(* Equilibria of the exported game and of the diagram. *)
From Coq Require Import String List Bool Arith QArith Qcanon Lia Permutation.
Import ListNotations.
From Verif Require Import MBase MGraph MMacid MCpd MNet MProb MQuery MGame Spec SpecM SpecC SpecN SpecQ SpecPol SpecGame LBase LGraph LRoles LQc LCpd LNet LCheck LSum LBayes LQuery LDo LInter LFactor LBuilt LTotal LValue LSearch LPolicy LQcArith LLike LOptimal LOptDec LBest LEffects PMacid PQuery LGame LGrow LTree LLevels LShape LPayoff LPlay.
Local Open Scope Qc_scope.

Lemma separate_compatible : forall m n sg, separate m n sg -> compatible m n sg.
Proof. intros m n sg S d d' H1 H2 H3 H4. rewrite (S d d'); auto. Qed.

Section nash.
Variables (o : order) (m : macid) (n : net) (sg : list node) (ags : list agent) (vs : list node) (g : game) (ks : list (key * nat)).
Hypothesis O : valid_order o.
Hypothesis B : built n.
Hypothesis Hd : distribution n.
Hypothesis Co : connected n.
Hypothesis Sh : shaped o m n sg ags vs g ks.
Local Notation D := (dom_of (doms n)).
Local Notation z := (fun _ : node => 0%Qc).
Local Notation played := (played m n ks).

(* the strategy of a player that follows a policy *)
Definition mine (a : agent) (pv : list (node * outcome)) (d : node) : bool :=
  match lookup d (decision_agent m) with Some a' => if string_dec a' a then if list_eq_dec string_dec (parents (ngraph n) d) (map fst pv) then true else false else false | None => false end.
Definition strategy (a : agent) (c : behaviour) (b : nat -> list Qc) (k : nat) : list Qc :=
  match List.find (fun e : key * nat => (snd e =? k)%nat) ks with
  | Some ((a', pv), _) => if string_dec a' a then if negb (forallb (fun e => omem (snd e) (D (fst e))) pv) then b k else match List.find (mine a pv) sg with Some d => map (fun x => c d (upd (given pv z) d x)) (D d) | None => b k end else b k
  | None => b k
  end.
Lemma key_of : forall a pv k, In ((a, pv), k) ks -> List.find (fun e : key * nat => (snd e =? k)%nat) ks = Some ((a, pv), k).
Proof.
  intros a pv k K. destruct (sh_tree _ _ _ _ _ _ _ _ Sh) as (n1 & t & Ls & G & HL & _ & Ei & Em & Ek). destruct (gr_keys _ _ _ _ _ _ _ _ _ G) as [_ N]. rewrite <- Ek in N. clear - N K. induction ks as [|[key j] l IH]; [destruct K|]. cbn [List.find snd].
  cbn [map snd] in N. apply NoDup_cons_iff in N. destruct N as [N1 N2]. destruct K as [K|K]; [injection K as -> ->; rewrite Nat.eqb_refl; auto|]. destruct (Nat.eqb_spec j k) as [->|]; auto. exfalso. apply N1. apply in_map_iff. exists ((a, pv), k). auto.
Qed.
Lemma mine_of : forall a pv d, separate m n sg -> In d sg -> lookup d (decision_agent m) = Some a -> parents (ngraph n) d = map fst pv -> List.find (mine a pv) sg = Some d.
Proof.
  intros a pv d Sp Hs La Ep. assert (M : mine a pv d = true). { unfold mine. rewrite La. destruct (string_dec a a); [|congruence]. destruct (list_eq_dec _ _ _); [auto|congruence]. }
  destruct (List.find (mine a pv) sg) as [d'|] eqn:F; [|rewrite (List.find_none _ _ F d Hs) in M; discriminate]. apply List.find_some in F. destruct F as [H' F]. f_equal. unfold mine in F. destruct (lookup d' (decision_agent m)) as [a'|] eqn:La'; [|discriminate]. destruct (string_dec a' a) as [->|]; [|discriminate]. destruct (list_eq_dec _ _ _) as [E|]; [|discriminate].
  apply Sp; auto; congruence.
Qed.
Lemma label_of : forall a pv k, In ((a, pv), k) ks -> exists d s, nth_error (g_isets g) k = Some s /\ is_player s = Some a /\ In d sg /\ lookup d (decision_agent m) = Some a /\ parents (ngraph n) d = map fst pv /\ length (is_actions s) = length (D d).
Proof.
  intros a pv k K. destruct (sh_tree _ _ _ _ _ _ _ _ Sh) as (n1 & t & Ls & G & HL & _ & Ei & Em & Ek). rewrite Ek in K. destruct (gr_label _ _ _ _ _ _ _ _ _ G _ _ _ K) as (d & s & L1 & L2 & L3 & L4 & L5 & L6 & L7 & L8 & _). exists d, s. rewrite Ei.
  unfold get_parents in L7. destruct (mem d (nodes (ngraph n))); [|discriminate]. injection L7 as L7. auto 10.
Qed.
Lemma strategy_other : forall a c b k s, nth_error (g_isets g) k = Some s -> is_player s <> Some a -> strategy a c b k = b k.
Proof.
  intros a c b k s E Pl. unfold strategy. destruct (List.find _ ks) as [[[a' pv] j]|] eqn:F; auto. apply List.find_some in F. destruct F as [F Ej]. apply Nat.eqb_eq in Ej. cbn [snd] in Ej. subst j. destruct (label_of _ _ _ F) as (d & s' & L1 & L2 & _). destruct (string_dec a' a) as [->|]; auto. congruence.
Qed.

Lemma strategy_behaves : forall a c b, separate m n sg -> behaves g b -> policy n sg c -> behaves g (strategy a c b).
Proof.
  intros a c b Sp Bb Pc k s ag E Pl. unfold strategy. destruct (List.find _ ks) as [[[a' pv] j]|] eqn:F; [|apply (Bb k s ag); auto]. apply List.find_some in F. destruct F as [F Ej]. apply Nat.eqb_eq in Ej. cbn [snd] in Ej. subst j.
  destruct (label_of _ _ _ F) as (d & s' & L1 & L2 & L3 & L4 & L5 & L6). assert (s' = s) by congruence. subst s'. destruct (string_dec a' a) as [->|]; [|apply (Bb k s ag); auto]. destruct (forallb _ pv) eqn:V; cbn [negb]; [|apply (Bb k s ag); auto].
  rewrite (mine_of a pv d); auto. rewrite L6. split; [apply map_length|]. destruct (Pc d L3) as (_ & P2 & P3). split.
  - intros q Hq. apply in_map_iff in Hq. destruct Hq as (x & <- & _). apply P2.
  - apply P3. intros p K. apply edge_parents in K. rewrite L5 in K. apply in_map_iff in K. destruct K as ([q x] & E' & K). cbn in E'. subst q. rewrite (given_in pv z p x); auto; [|change (NoDup (map fst pv)); assert (Np := nodup_parents (ngraph n) d (proj1 (proj1 Hd))); rewrite L5 in Np; exact Np].
    rewrite forallb_forall in V. apply V in K. cbn in K. apply omem_In in K. auto.
Qed.
Lemma strategy_plays : forall a c b d x, separate m n sg -> policy n sg c -> In d sg -> lookup d (decision_agent m) = Some a -> within n x -> played (strategy a c b) d x = c d x.
Proof.
  intros a c b d x Sp Pc Hs La Wx. assert (Hn : In d (nodes (ngraph n))) by (apply (sh_nodes _ _ _ _ _ _ _ _ Sh); apply (vs_facts _ _ _ _ _ _ _ _ Sh); auto).
  assert (Hp : forall u, edge (ngraph n) u d -> In (x u) (D u)) by (intros u K; apply Wx; apply (proj1 (proj1 Hd)) in K; tauto).
  destruct (decision_key o m n sg ags vs g ks Hd Sh d x Hs Hp) as (k & ag & s & X1 & X2 & X3 & X4 & _). assert (ag = a) by congruence. subst ag. unfold LPlay.played. rewrite La. match goal with |- match ?f with _ => _ end = _ => replace f with (Some k) by (symmetry; exact X2) end.
  apply find_in in X2. unfold strategy. rewrite (key_of _ _ _ X2). destruct (string_dec a a); [|congruence].
  assert (V : forallb (fun e => omem (snd e) (D (fst e))) (ctx x (parents (ngraph n) d)) = true). { apply forallb_forall. intros w K. apply in_map_iff in K. destruct K as (u & <- & K). cbn. apply omem_In. apply Hp. apply edge_parents. auto. }
  rewrite V. cbn [negb]. rewrite (mine_of a _ d); auto; [|unfold ctx; rewrite map_map; cbn; symmetry; apply map_id]. assert (Px := pos_nth _ _ (Wx d Hn)). rewrite (nth_error_nth _ _ 0 (map_nth_error (fun y => c d (upd (given (ctx x (parents (ngraph n) d)) z) d y)) _ _ Px)).
  destruct (Pc d Hs) as (P1 & _). apply P1; [apply upd_same|]. intros u K. assert (u <> d) by (intros ->; apply (no_self_edge _ _ (proj2 (proj1 Hd)) K)). rewrite upd_other by auto. apply given_in; [rewrite keys_ctx; apply nodup_parents; apply Hd|]. apply in_map_iff. exists u. split; auto. apply edge_parents. auto.
Qed.
Lemma played_same : forall a b b' d x, (forall k s, nth_error (g_isets g) k = Some s -> is_player s <> Some a -> b' k = b k) -> In d sg -> lookup d (decision_agent m) <> Some a -> within n x -> played b' d x = played b d x.
Proof.
  intros a b b' d x H Hs La Wx. assert (Hp : forall u, edge (ngraph n) u d -> In (x u) (D u)) by (intros u K; apply Wx; apply (proj1 (proj1 Hd)) in K; tauto).
  destruct (decision_key o m n sg ags vs g ks Hd Sh d x Hs Hp) as (k & ag & s & X1 & X2 & X3 & X4 & _). unfold LPlay.played. rewrite X1. match goal with |- match ?f with _ => _ end = _ => replace f with (Some k) by (symmetry; exact X2) end. rewrite (H k s); auto. congruence.
Qed.
Hypothesis Va : forall a us, In (a, us) (agent_utilities m) -> NoDup us.
Lemma players_ags : g_players g = ags.
Proof. destruct (sh_tree _ _ _ _ _ _ _ _ Sh) as (n1 & t & Ls & G & HL & E & _). auto. Qed.
Lemma ags_utilities : forall j a, nth_error ags j = Some a -> exists us, lookup a (agent_utilities m) = Some us.
Proof.
  intros j a Hj. destruct (vs_facts _ _ _ _ _ _ _ _ Sh) as (Nv & Iv & _). destruct (some_values o m n sg ags vs g ks Hd Sh (fun _ => False) z) as (x & _ & Hx); [intro; right; auto|intros ? []|]. destruct (leaf_of n vs x Hx) as (L1 & L2 & L3). set (p := map (fun v => pos (x v) (D v)) vs) in *.
  assert (K : In (0%nat :: p) (map fst (g_payoffs g))) by (apply (sh_leaves _ _ _ _ _ _ _ _ Sh); eauto). apply in_map_iff in K. destruct K as ([idx l] & E & K). cbn in E. subst idx.
  destruct (sh_pay _ _ _ _ _ _ _ _ Sh p l K) as (n1 & n2 & [_ Ln] & Pp). rewrite (Ln Co) in Pp. destruct (payoffs_inv o m n O B Hd Co _ _ _ _ (history_nodup n vs p Nv) Pp j a Hj) as (_ & ul & U1 & _). eauto.
Qed.
Lemma diagram_to_game : forall b c, behaves g b -> compatible m n sg -> (forall d x, In d sg -> within n x -> c d x = played b d x) -> equilibrium m n sg ags c -> game_equilibrium g b.
Proof.
  intros b c Bb Cm Ec Eq j a b' Hj [Bb' Dv]. rewrite players_ags in Hj. assert (Ha := nth_error_In _ _ Hj). destruct (ags_utilities j a Hj) as [us Lu]. assert (Nu := Va a us (lookup_In _ _ _ _ Lu)).
  rewrite (payoff_value o m n sg ags vs g ks O B Hd Co Sh b' j a us), (payoff_value o m n sg ags vs g ks O B Hd Co Sh b j a us); auto. rewrite <- (value_ext n sg c (played b) us); auto. apply (Eq a us (played b') Ha Lu). split; [eapply played_policy; eauto|].
  intros d x Hs La Wx. rewrite Ec; auto. apply (played_same a); auto.
Qed.
Lemma game_to_diagram : forall b c, behaves g b -> separate m n sg -> (forall d x, In d sg -> within n x -> c d x = played b d x) -> game_equilibrium g b -> equilibrium m n sg ags c.
Proof.
  intros b c Bb Sp Ec Eq a us c' Ha Lu [Pc Dv]. assert (Nu := Va a us (lookup_In _ _ _ _ Lu)). destruct (In_nth_error _ _ Ha) as [j Hj]. assert (Cm := separate_compatible _ _ _ Sp). assert (Bs := strategy_behaves a c' b Sp Bb Pc).
  assert (Q : game_value g (strategy a c' b) j <= game_value g b j). { apply (Eq j a); [rewrite players_ags; auto|]. split; auto. intros k s E K. eapply strategy_other; eauto. }
  rewrite (payoff_value o m n sg ags vs g ks O B Hd Co Sh (strategy a c' b) j a us), (payoff_value o m n sg ags vs g ks O B Hd Co Sh b j a us) in Q; auto. rewrite (value_ext n sg c (played b) us); auto. rewrite (value_ext n sg c' (played (strategy a c' b)) us); auto.
  intros d x Hs Wx. symmetry. destruct (lookup d (decision_agent m)) as [a'|] eqn:La.
  - destruct (string_dec a' a) as [->|Na]; [apply strategy_plays; auto|]. rewrite (played_same a b); auto; [|intros k s E K; eapply strategy_other; eauto|congruence]. rewrite <- Ec; auto. symmetry. apply Dv; auto. congruence.
  - rewrite (played_same a b); auto; [|intros k s E K; eapply strategy_other; eauto|congruence]. rewrite <- Ec; auto. symmetry. apply Dv; auto. congruence.
Qed.
End nash.
