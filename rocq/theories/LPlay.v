(* Strategies of the exported game as policies of the diagram. *)
From Coq Require Import String List Bool Arith QArith Qcanon Lia Permutation.
Import ListNotations.
From Verif Require Import MBase MGraph MMacid MCpd MNet MProb MQuery MGame Spec SpecM SpecC SpecN SpecQ SpecPol SpecGame LBase LGraph LRoles LQc LCpd LNet LCheck LSum LBayes LQuery LDo LInter LFactor LBuilt LTotal LValue LSearch LPolicy LQcArith LLike LOptimal LOptDec LBest LEffects PMacid PQuery LGame LGrow LTree LLevels LShape LPayoff.
Local Open Scope Qc_scope.

Lemma pos_of_nth : forall (l : list outcome) i, NoDup l -> (i < length l)%nat -> pos (nth i l 0) l = i.
Proof.
  intros l i N H. apply (proj1 (NoDup_nth_error l) N).
  - assert (K := pos_nth (nth i l 0) l (nth_In l 0 H)). apply nth_error_Some. congruence.
  - rewrite (pos_nth _ _ (nth_In l 0 H)). symmetry. apply nth_error_nth'. auto.
Qed.
Lemma do_prob_sub : forall n c c', distribution n -> incl c c' -> do_prob n [] c' <> 0 -> do_prob n [] c <> 0.
Proof.
  intros n c c' Hd I Nz Z. apply Nz. assert (Pd : forall c, 0 <= do_prob n [] c).
  { intro d. rewrite do_prob_P; [|apply NoDup_nil|intros ? []]. apply P_nonneg. apply do_kernel_cond; auto. intros v x K. discriminate. }
  apply Qcle_antisym; auto. rewrite <- Z. unfold do_prob. apply total_le. intros b _ _. destruct (agrees c' b) eqn:E.
  - replace (agrees c b) with true; [apply Qcle_refl|]. symmetry. unfold agrees in *. rewrite forallb_forall in *. intros x Hx. apply E. auto.
  - destruct (agrees c b); [|apply Qcle_refl]. unfold do_joint. cbn [agrees forallb]. apply qprod_nonneg. intros q Hq. apply in_map_iff in Hq. destruct Hq as (v & <- & Hv). match goal with |- context [in_dec ?e v ?l] => destruct (in_dec e v l) as [[]|] end. apply (k_nonneg _ _ _ (kernel_cond n Hd) v b). auto.
Qed.
(* the position of given values *)
Lemma leaf_of : forall n vs a, (forall v, In v vs -> In (a v) (dom_of (doms n) v)) -> let p := map (fun v => pos (a v) (dom_of (doms n) v)) vs in
  length p = length vs /\ position n vs p /\ history n vs p = ctx a vs.
Proof.
  intros n vs a H. cbv zeta. split; [apply map_length|]. induction vs as [|v vs IH]; [split; [exact I|reflexivity]|]. cbn [map position history ctx]. assert (Hv := H v (or_introl eq_refl)). assert (E := pos_nth _ _ Hv).
  destruct IH as [I1 I2]; [intros; apply H; right; auto|]. split; [split; [apply nth_error_Some; congruence|auto]|]. rewrite I2. unfold ctx. cbn [map]. f_equal. f_equal. exact (nth_error_nth _ _ (Q2Qc 0) E).
Qed.
Lemma at_split : forall vs (l1 l2 : list node) d p, vs = l1 ++ d :: l2 -> length p = length l1 -> at_variable vs p d.
Proof. intros vs l1 l2 d p -> E. unfold at_variable. rewrite E, nth_error_app2, Nat.sub_diag by lia. reflexivity. Qed.
Lemma position_app : forall n l1 l2 p, length p = length l1 -> (position n (l1 ++ l2) p <-> position n l1 p) /\ history n (l1 ++ l2) p = history n l1 p.
Proof.
  intros n l1. induction l1 as [|v l1 IH]; intros l2 [|i p] E; cbn in E; try discriminate; cbn.
  - split; [tauto|]. destruct l2; auto.
  - destruct (IH l2 p) as [I1 I2]; [lia|]. rewrite I1, I2. tauto.
Qed.
Lemma sees_ctx : forall n v l a pv, sees n v (ctx a l) pv -> pv = ctx a (parents (ngraph n) v).
Proof.
  intros n v l a pv [E I]. rewrite <- E. unfold ctx. rewrite map_map. rewrite <- (map_id pv) at 1. apply map_ext_in. intros [q x] K. apply I in K. apply in_map_iff in K. destruct K as (u & K & _). injection K as -> <-. reflexivity.
Qed.

Section play.
Variables (o : order) (m : macid) (n : net) (sg : list node) (ags : list agent) (vs : list node) (g : game) (ks : list (key * nat)).
Hypothesis O : valid_order o.
Hypothesis B : built n.
Hypothesis Hd : distribution n.
Hypothesis Co : connected n.
Hypothesis Sh : shaped o m n sg ags vs g ks.
Local Notation D := (dom_of (doms n)).
Local Notation z := (fun _ : node => 0%Qc).

Lemma vs_facts : NoDup vs /\ incl vs (nodes (ngraph n)) /\ incl sg vs.
Proof. split; [apply (sh_vars _ _ _ _ _ _ _ _ Sh)|]. split; [apply (sh_nodes _ _ _ _ _ _ _ _ Sh)|]. intros v K. apply (proj1 (proj2 (sh_vars _ _ _ _ _ _ _ _ Sh))). auto. Qed.
(* some values *)
Lemma some_values : forall (X : node -> Prop) a, (forall v, {X v} + {~ X v}) -> (forall v, X v -> In v vs -> In (a v) (D v)) -> exists a', (forall v, X v -> a' v = a v) /\ forall v, In v vs -> In (a' v) (D v).
Proof.
  intros X a dec H. destruct vs_facts as (_ & Iv & _). exists (fun v => if dec v then a v else nth 0 (D v) 0). split; [intros v K; destruct (dec v); [auto|contradiction]|].
  intros v K. destruct (dec v); auto. destruct (dist_lookup n v Hd (Iv v K)) as [_ Ne]. destruct (D v); [congruence|left; auto].
Qed.
(* the variable v is at a position with these values *)
Lemma position_of : forall v a, In v vs -> (forall u, In u vs -> In (a u) (D u)) -> exists p l, position n vs p /\ (length p < length vs)%nat /\ at_variable vs p v /\ history n vs p = ctx a l /\ incl l vs.
Proof.
  intros v a Hv Ha. apply in_split in Hv. destruct Hv as (l1 & l2 & E). destruct (leaf_of n l1 a) as (P1 & P2 & P3); [intros u K; apply Ha; rewrite E; apply in_or_app; auto|]. set (p := map (fun v => pos (a v) (D v)) l1) in *.
  exists p, l1. rewrite E. destruct (position_app n l1 (v :: l2) p P1) as [A1 A2]. split; [apply A1; auto|]. split; [rewrite P1, app_length; cbn; lia|]. split; [eapply at_split; eauto|]. split; [congruence|]. intros u K. apply in_or_app. auto.
Qed.
Lemma belongs_of : forall p, position n vs p -> (length p < length vs)%nat -> exists k, belongs g p k /\ find idx_dec (0%nat :: p) (g_moves g) = Some k.
Proof.
  intros p P L. destruct (sh_tree _ _ _ _ _ _ _ _ Sh) as (n1 & t & Ls & G & HL & _ & _ & Em & _). assert (K : In (0%nat :: p) (map fst (g_moves g))).
  { rewrite Em, (gr_moves _ _ _ _ _ _ _ _ _ G). apply in_map. apply HL. auto. }
  apply in_map_iff in K. destruct K as ([idx k] & E & K). cbn in E. subst idx. exists k. split; auto. apply in_find; auto. rewrite Em, (gr_moves _ _ _ _ _ _ _ _ _ G). apply FinFun.Injective_map_NoDup; [intros x y E; congruence|apply (gr_nodup _ _ _ _ _ _ _ _ _ G)].
Qed.
(* what is at the position of a decision *)
Lemma decision_at : forall p v, position n vs p -> (length p < length vs)%nat -> at_variable vs p v -> In v sg ->
  exists k ag pv s, find idx_dec (0%nat :: p) (g_moves g) = Some k /\ lookup v (decision_agent m) = Some ag /\ sees n v (history n vs p) pv /\ find key_dec (ag, pv) ks = Some k /\
    nth_error (g_isets g) k = Some s /\ is_player s = Some ag /\ In ag ags /\ (compatible m n sg -> length (is_actions s) = length (D v)).
Proof.
  intros p v P L A Hv. destruct (belongs_of p P L) as (k & K & F). destruct (sh_tree _ _ _ _ _ _ _ _ Sh) as (n1 & t & Ls & G & HL & _ & Ei & Em & Ek).
  assert (K' : belongs (t_game t) p k) by (unfold belongs in *; rewrite <- Em; auto). destruct (gr_dec _ _ _ _ _ _ _ _ _ G p k v K' A Hv) as (ag & pv & i & D1 & D2 & D3 & D4 & _). destruct (gr_keys _ _ _ _ _ _ _ _ _ G) as [N1 _].
  destruct (gr_label _ _ _ _ _ _ _ _ _ G _ _ _ D3) as (d & s & L1 & L2 & L3 & L4 & L5 & L6 & L7 & L8 & _). exists k, ag, pv, s. rewrite Ei, Ek. do 3 (split; [auto|]). split; [apply in_find; auto|]. do 3 (split; [auto|]).
  intro Cm. rewrite L8. apply Cm; auto; [congruence|]. unfold get_parents in L7. destruct (mem d (nodes (ngraph n))); [|discriminate]. injection L7 as ->. apply D2.
Qed.
Lemma chance_at : forall p v, position n vs p -> (length p < length vs)%nat -> at_variable vs p v -> ~ In v sg ->
  exists k pv n2 f, find idx_dec (0%nat :: p) (g_moves g) = Some k /\ sees n v (history n vs p) pv /\ macid_query o m n [v] pv [] = (n2, Ok f) /\
    nth_error (g_isets g) k = Some (mkIset None None (map Some (D v)) (map snd (fentries f))).
Proof.
  intros p v P L A Hv. destruct (belongs_of p P L) as (k & K & F). destruct (sh_tree _ _ _ _ _ _ _ _ Sh) as (n1 & t & Ls & G & HL & _ & Ei & Em & Ek).
  assert (K' : belongs (t_game t) p k) by (unfold belongs in *; rewrite <- Em; auto). destruct (gr_chance _ _ _ _ _ _ _ _ _ G p k v K' A Hv) as (pv & n3 & n2 & f & D1 & [_ D2] & D3 & D4 & _).
  rewrite (D2 Co) in D3. exists k, pv, n2, f. rewrite Ei. auto.
Qed.
(* the parents of the tree's variables are in the tree *)
Lemma vs_closed : closed (ngraph n) vs.
Proof.
  intros u v E Hv. destruct (some_values (fun _ => False) z) as (a & _ & Ha); [intro; right; auto|intros ? []|]. destruct (position_of v a Hv Ha) as (p & l & P & L & A & Hh & Il).
  assert (Sn : exists pv, sees n v (history n vs p) pv). { destruct (in_dec String.string_dec v sg) as [K|K]; [destruct (decision_at p v P L A K) as (k & ag & pv & s & _ & _ & X & _)|destruct (chance_at p v P L A K) as (k & pv & n2 & f & _ & X & _)]; eauto. }
  destruct Sn as (pv & Sn). rewrite Hh in Sn. assert (X := sees_ctx _ _ _ _ _ Sn). destruct Sn as [_ Sn]. apply edge_parents in E. apply Il. assert (K : In (u, a u) pv) by (rewrite X; apply in_map_iff; exists u; auto).
  apply Sn in K. apply in_map_iff in K. destruct K as (w & K & Hw). injection K as -> _. auto.
Qed.
Lemma fam_in_vs : forall d u, In d sg -> u = d \/ edge (ngraph n) u d -> In u vs.
Proof. intros d u Hs [->|E]; [apply vs_facts; auto|]. eapply vs_closed; eauto. apply vs_facts; auto. Qed.
(* what the agent of a decision does *)
Definition played (b : nat -> list Qc) : behaviour := fun d a =>
  match lookup d (decision_agent m) with
  | Some ag => match find key_dec (ag, ctx a (parents (ngraph n) d)) ks with Some k => nth (pos (a d) (D d)) (b k) 0 | None => 0 end
  | None => 0
  end.
Lemma decision_key : forall d a, In d sg -> (forall u, edge (ngraph n) u d -> In (a u) (D u)) ->
  exists k ag s, lookup d (decision_agent m) = Some ag /\ find key_dec (ag, ctx a (parents (ngraph n) d)) ks = Some k /\ nth_error (g_isets g) k = Some s /\ is_player s = Some ag /\ In ag ags /\ (compatible m n sg -> length (is_actions s) = length (D d)).
Proof.
  intros d a Hs Ha. destruct vs_facts as (_ & _ & Is). destruct (some_values (fun u => In u (parents (ngraph n) d)) a) as (a' & E & Ha'); [intro u; apply in_dec, String.string_dec|intros v K _; apply Ha; apply edge_parents; auto|].
  destruct (position_of d a' (Is d Hs) Ha') as (p & l & P & L & A & Hh & Il). destruct (decision_at p d P L A Hs) as (k & ag & pv & s & _ & X1 & X2 & X3 & X4 & X5 & X6 & X7). rewrite Hh in X2. apply sees_ctx in X2. subst pv. exists k, ag, s.
  replace (ctx a (parents (ngraph n) d)) with (ctx a' (parents (ngraph n) d)) by (unfold ctx; apply map_ext_in; intros u K; rewrite E; auto). split; auto.
Qed.
Lemma played_policy : forall b, behaves g b -> compatible m n sg -> policy n sg (played b).
Proof.
  intros b Bb Cm d Hs. split; [|split].
  - intros a a' E E'. unfold played. replace (ctx a (parents (ngraph n) d)) with (ctx a' (parents (ngraph n) d)) by (unfold ctx; apply map_ext_in; intros u K; rewrite E'; auto; apply edge_parents; auto). rewrite E. reflexivity.
  - intro a. unfold played. destruct (lookup d (decision_agent m)) as [ag|]; [|discriminate]. destruct (find key_dec (ag, ctx a (parents (ngraph n) d)) ks) as [k|] eqn:F; [|discriminate].
    destruct (sh_tree _ _ _ _ _ _ _ _ Sh) as (n1 & t & Ls & G & HL & _ & Ei & Em & Ek). apply find_in in F. rewrite Ek in F. destruct (gr_label _ _ _ _ _ _ _ _ _ G _ _ _ F) as (d' & s & L1 & L2 & _). rewrite <- Ei in L1. destruct (Bb k s ag L1 L2) as (_ & Nn & _).
    destruct (nth_in_or_default (pos (a d) (D d)) (b k) 0) as [K|K]; [apply Nn; auto|rewrite K; discriminate].
  - intros a Ha. destruct (decision_key d a Hs Ha) as (k & ag & s & X1 & X2 & X3 & X4 & X5 & X6). destruct (Bb k s ag X3 X4) as (Len & _ & Sm). rewrite (X6 Cm) in Len. destruct vs_facts as (_ & Iv & Is). assert (Hn : In d (nodes (ngraph n))) by auto.
    assert (Np : ~ In d (parents (ngraph n) d)) by (intro K; apply edge_parents in K; apply (no_self_edge _ _ (proj2 (proj1 Hd)) K)).
    rewrite <- Sm. transitivity (qsum (map (fun x => nth (pos x (D d)) (b k) 0) (D d))).
    + apply qsum_ext. intros x Hx. unfold played. rewrite X1. replace (ctx (upd a d x) (parents (ngraph n) d)) with (ctx a (parents (ngraph n) d)) by (unfold ctx; apply map_ext_in; intros u K; rewrite upd_other; auto; intros ->; auto).
      match goal with |- match ?f with _ => _ end = _ => replace f with (Some k) by (symmetry; exact X2) end. rewrite upd_same. reflexivity.
    + rewrite qsum_nth. assert (Nd := dom_nodup n d Hd Hn). rewrite (map_ext_in _ (fun i => nth i (b k) 0)) by (intros i K; apply in_seq in K; rewrite pos_of_nth; auto; lia). rewrite <- Len. transitivity (qsum (map (fun x => x) (b k))); [symmetry; apply (qsum_nth (fun x => x))|rewrite map_id; reflexivity].
Qed.
Lemma no_keys : NoDup (keys (@nil (node * outcome))).
Proof. constructor. Qed.
Lemma no_values : in_domains n [].
Proof. intros v x []. Qed.
Lemma no_tables : tables_sorted n [].
Proof. intros v u t []. Qed.
Lemma sees_agree : forall v h pv (a : asg), sees n v h pv -> (forall u x, In (u, x) h -> a u = x) -> pv = ctx a (parents (ngraph n) v).
Proof. intros v h pv a [E I] H. rewrite <- E. unfold ctx. rewrite map_map. rewrite <- (map_id pv) at 1. apply map_ext_in. intros [q x] K. cbn. rewrite (H q x); auto. Qed.
(* the probabilities at the positions are those of the diagram *)
Lemma branch_follow : forall b p v i a, position n vs p -> (length p < length vs)%nat -> at_variable vs p v -> (i < length (D v))%nat -> do_prob n [] (history n vs p) <> 0 ->
  (forall u x, In (u, x) (history n vs p) -> a u = x) -> a v = nth i (D v) 0 -> branch_prob g b p i = follow n sg (played b) v a.
Proof.
  intros b p v i a P L A Hi Nz Ha Av. destruct vs_facts as (Nv & Iv & Is). assert (Hv : In v vs) by (eapply at_variable_in; eauto). assert (Nd := dom_nodup n v Hd (Iv v Hv)). unfold branch_prob, follow. destruct (in_dec String.string_dec v sg) as [K|K].
  - destruct (decision_at p v P L A K) as (k & ag & pv & s & F & X1 & X2 & X3 & X4 & X5 & _). rewrite F, X4, X5. apply (sees_agree v _ pv a) in X2; auto. subst pv. unfold played. rewrite X1.
    match goal with |- _ = match ?f with _ => _ end => replace f with (Some k) by (symmetry; exact X3) end. rewrite Av, pos_of_nth; auto.
  - destruct (chance_at p v P L A K) as (k & pv & n2 & f & F & X1 & X2 & X3). rewrite F, X3. cbn [is_player is_probs]. assert (W : wf_dag (ngraph n)) by apply Hd.
    destruct (macid_query_smaller _ _ _ _ _ _ _ O W X2) as [_ Ef]. destruct (macid_query_inv _ _ _ _ _ _ _ _ X2) as (Ic & _ & _ & Q).
    assert (Ek : keys pv = parents (ngraph n) v) by apply X1. assert (Nk : NoDup (keys pv)) by (rewrite Ek; apply nodup_parents; apply W). assert (Zp : do_prob n [] pv <> 0) by (apply (do_prob_sub n pv (history n vs p) Hd); [apply X1|auto]).
    destruct (C55_query_conditional o _ n _ _ [] _ _ O B Hd Nk Ic no_keys no_values no_tables Q) as (Nf & Kf & _ & _ & C & _). destruct (C Zp) as [_ Cf].
    assert (Fv : fvars f = [v]). { destruct (fvars f) as [|w l]; [exfalso; apply (proj2 (Kf v)); left; auto|]. assert (w = v) by (destruct (proj1 (Kf w)) as [E|[]]; [left; auto|auto]). subst w. f_equal. destruct l as [|u l]; auto. exfalso. apply NoDup_cons_iff in Nf. destruct Nf as [Nf _]. apply Nf. left. destruct (proj1 (Kf u)) as [E|[]]; [right; left; auto|auto]. }
    assert (Li : (i < length (fentries f))%nat) by (rewrite <- (map_length fst), Ef, map_length; auto). destruct (nth_error (fentries f) i) as [[xs q]|] eqn:En; [|apply nth_error_None in En; lia].
    assert (Ex : xs = [nth i (D v) 0]). { assert (X : nth_error (map fst (fentries f)) i = Some xs) by (rewrite nth_error_map, En; auto). rewrite Ef, nth_error_map, (nth_error_nth' (D v) 0 Hi) in X. cbn in X. congruence. }
    rewrite (nth_error_nth _ _ 0 (map_nth_error snd _ _ En)). cbn [snd]. apply nth_error_In in En. rewrite (Cf _ _ En), Fv, Ex. cbn [combine app].
    match goal with |- ?x / ?y = ?k => replace x with (k * y); [field; auto|symmetry; apply (kernel_given n v (nth i (D v) 0) pv a)] end; auto; [apply nth_In; auto|].
    unfold agrees. apply forallb_forall. intros [u x] [J|J]; cbn; apply oeqb_iff; [injection J as <- <-; auto|]. apply Ha. apply X1. auto.
Qed.
Lemma history_app : forall p q u x, In (u, x) (history n vs p) -> In (u, x) (history n vs (p ++ q)).
Proof. clear. induction vs as [|v l IH]; intros [|i p] q u x K; cbn in *; try tauto. destruct K as [K|K]; auto. Qed.
Lemma position_prefix : forall p q, position n vs (p ++ q) -> position n vs p.
Proof. clear. induction vs as [|v l IH]; intros [|i p] q K; cbn in *; try tauto. destruct K as [K1 K2]. split; eauto. Qed.
(* the probability of reaching a leaf *)
Lemma reach_weight : forall b p, In p (leaves n vs) -> do_prob n [] (history n vs p) <> 0 -> reach_prob g b [] p = weight (follow n sg (played b)) vs (given (history n vs p) z).
Proof.
  intros b p Hp Nz. apply in_leaves in Hp. destruct Hp as [Lp Pp]. assert (Nv : NoDup vs) by apply vs_facts. set (a := given (history n vs p) z).
  assert (Ha : forall u x, In (u, x) (history n vs p) -> a u = x) by (intros u x K; apply given_in; auto; apply history_nodup; auto).
  assert (G : forall rest done, p = done ++ rest -> reach_prob g b done rest = weight (follow n sg (played b)) (skipn (length done) vs) a).
  { induction rest as [|i rest IH]; intros done E.
    - rewrite app_nil_r in E. subst done. rewrite Lp, skipn_all. reflexivity.
    - cbn [reach_prob]. rewrite (IH (done ++ [i])) by (rewrite <- app_assoc; auto). assert (Ld : (length done < length vs)%nat) by (rewrite <- Lp, E, app_length; cbn; lia). destruct (nth_error vs (length done)) as [v|] eqn:Ev; [|apply nth_error_None in Ev; lia].
      assert (Es : skipn (length done) vs = v :: skipn (length (done ++ [i])) vs). { rewrite app_length. cbn [length]. rewrite Nat.add_1_r. clear - Ev. revert Ev. generalize (length done). induction vs as [|w l IH]; intros [|k] H; cbn in *; try discriminate; [injection H as ->; auto|]. apply IH in H. exact H. }
      rewrite Es. unfold weight. cbn [map]. change (qprod ?l) with (fold_right Qcmult 1 l). cbn [fold_right]. f_equal. assert (Ep : p = (done ++ [i]) ++ rest) by (rewrite <- app_assoc; auto). assert (Pi : position n vs (done ++ [i])) by (apply (position_prefix _ rest); rewrite <- Ep; auto).
      apply (position_snoc n vs done i v Ev) in Pi. destruct Pi as [Pd Hi]. apply (branch_follow b done v i a); auto.
      + apply (do_prob_sub n _ (history n vs p) Hd); auto. intros [u x] K. rewrite E. apply history_app. auto.
      + intros u x K. apply Ha. rewrite E. apply history_app. auto.
      + apply Ha. rewrite Ep. apply history_app. rewrite (history_snoc n vs done i v Ev). apply in_or_app. right. left. auto. }
  apply (G p []). auto.
Qed.
(* the payoffs *)
Lemma utility_inv : forall c a n' u, NoDup (keys c) -> expected_utility o m n c [] a = (n', Ok u) ->
  n' = n /\ do_prob n [] c <> 0 /\ exists us, lookup a (agent_utilities m) = Some us /\ incl us (nodes (ngraph n)) /\ us <> [] /\ (NoDup us -> u = qsum (map (expectation n [] c) us)).
Proof.
  intros c a n' u Nc H. assert (W : wf_dag (ngraph n)) by apply Hd. assert (L := later_utility n _ _ _ _ _ _ _ (later_refl n W) H). split; [apply L; auto|].
  assert (H' := H). unfold expected_utility in H'. unfold dict_get in H'. destruct (lookup a (agent_utilities m)) as [us|] eqn:Eu; [|discriminate]. unfold macid_expected_value in H'. destruct (macid_query o m n us c []) as [n1 [f|]] eqn:E; [|discriminate]. cbn [bind] in H'.
  destruct (query_asked _ _ _ _ _ _ _ E W) as [Ne Iu]. destruct (macid_query_inv _ _ _ _ _ _ _ _ E) as (Ic & _ & _ & Q). destruct (expectations f) as [l|] eqn:Ef; [|discriminate].
  assert (Nz : do_prob n [] c <> 0).
  { intro Z. destruct (C55_query_conditional o _ n _ _ [] _ _ O B Hd Nc Ic no_keys no_values no_tables Q) as (_ & _ & _ & _ & _ & C).
    assert (C0 : forall xs p, In (xs, p) (fentries f) -> p = 0). { apply C; auto. intros v Hv. destruct us as [|w us]; [congruence|]. exists w. split; [left; auto|]. apply Co; [apply Iu; left; auto|apply Ic; auto]. }
    unfold expectations in Ef. replace (qsum (map snd (fentries f))) with 0 in Ef; [discriminate Ef|]. symmetry. rewrite (qsum_ext _ snd (fun _ => 0)); [apply qsum_zero|]. intros [xs p] K. cbn. eapply C0; eauto. }
  split; auto. exists us. split; auto. split; auto. split; auto. intro Nu.
  exact (C41_expected_utility o m n c [] a us n' u O B Hd Nc no_keys no_values no_tables Nz Eu Nu H).
Qed.
Lemma payoffs_inv : forall c l n' us, NoDup (keys c) -> payoffs o m n c l = (n', Ok us) -> forall j a, nth_error l j = Some a ->
  do_prob n [] c <> 0 /\ exists ul, lookup a (agent_utilities m) = Some ul /\ incl ul (nodes (ngraph n)) /\ ul <> [] /\ (NoDup ul -> nth j us 0 = qsum (map (expectation n [] c) ul)).
Proof.
  intros c l. induction l as [|x l IH]; intros n' us Nc H j a Hj; [destruct j; discriminate|]. cbn [payoffs] in H. destruct (expected_utility o m n c [] x) as [n1 [u|]] eqn:E; [|discriminate]. destruct (utility_inv _ _ _ _ Nc E) as (-> & Nz & ul & U1 & U2 & U3 & U4).
  destruct (payoffs o m n c l) as [n2 [us2|]] eqn:E2; [|discriminate]. cbn in H. injection H as _ <-. split; auto. destruct j as [|j]; cbn in Hj.
  - injection Hj as <-. eauto 10.
  - apply (IH _ _ Nc eq_refl j a Hj).
Qed.
(* the expected payoffs are the expected utilities *)
Theorem payoff_value : forall b j a us, behaves g b -> compatible m n sg -> nth_error ags j = Some a -> lookup a (agent_utilities m) = Some us -> NoDup us -> game_value g b j = value n sg (played b) us.
Proof.
  intros b j a us Bb Cm Hj Lu Nu. destruct vs_facts as (Nv & Iv & Is). assert (Cl := vs_closed).
  assert (Pay : forall p l, In (0%nat :: p, l) (g_payoffs g) -> In p (leaves n vs) /\ do_prob n [] (history n vs p) <> 0 /\ nth j l 0 = ahead n vs us (given (history n vs p) z)).
  { intros p l K. assert (Lp : In p (leaves n vs)). { apply in_leaves. assert (K' := in_map fst _ _ K). cbn in K'. apply (sh_leaves _ _ _ _ _ _ _ _ Sh) in K'. destruct K' as (q & E & K'). injection E as <-. auto. }
    destruct (sh_pay _ _ _ _ _ _ _ _ Sh p l K) as (n1 & n2 & [_ Ln] & Pp). rewrite (Ln Co) in Pp. destruct (payoffs_inv _ _ _ _ (history_nodup n vs p Nv) Pp j a Hj) as (Nz & ul & U1 & U2 & _ & U4). assert (ul = us) by congruence. subst ul. split; auto. split; auto. rewrite (U4 Nu). apply leaf_expectation; auto. }
  rewrite (value_leaves n vs Hd Nv Iv Cl sg (played b) us (played_policy b Bb Cm) Is). unfold game_value. change (fold_right Qcplus 0) with qsum.
  transitivity (qsum (map (fun idx => weight (follow n sg (played b)) vs (given (history n vs (tl idx)) z) * ahead n vs us (given (history n vs (tl idx)) z)) (map fst (g_payoffs g)))).
  - rewrite map_map. apply qsum_ext. intros [idx l] K. cbn [fst snd]. assert (K' := in_map fst _ _ K). cbn in K'. apply (sh_leaves _ _ _ _ _ _ _ _ Sh) in K'. destruct K' as (p & -> & _). cbn [tl]. destruct (Pay p l K) as (Lp & Nz & ->). rewrite reach_weight; auto.
  - transitivity (qsum (map (fun idx => weight (follow n sg (played b)) vs (given (history n vs (tl idx)) z) * ahead n vs us (given (history n vs (tl idx)) z)) (map (cons 0%nat) (leaves n vs)))).
    + apply qsum_perm. apply Permutation_map. apply NoDup_Permutation; [apply (sh_once _ _ _ _ _ _ _ _ Sh)|apply FinFun.Injective_map_NoDup; [intros x y E; congruence|apply leaves_nodup]|].
      intro idx. rewrite (sh_leaves _ _ _ _ _ _ _ _ Sh), in_map_iff. split; [intros (p & -> & K); exists p; split; [auto|apply in_leaves; auto]|intros (p & <- & K); exists p; split; [auto|apply in_leaves; auto]].
    + rewrite map_map. reflexivity.
Qed.
Definition entries_of (b : nat -> list Qc) (d : node) (pv : list (node * outcome)) : dist :=
  match lookup d (decision_agent m) with
  | Some ag => match find key_dec (ag, pv) ks with Some k => map (fun xp => (fst xp, Some (snd xp))) (combine (D d) (b k)) | None => [] end
  | None => []
  end.
Lemma complete_combine : forall (dom : list outcome) l x, NoDup dom -> length l = length dom -> In x dom -> complete dom (map (fun xp : outcome * Qc => (fst xp, Some (snd xp))) (combine dom l)) x = nth (pos x dom) l 0.
Proof.
  clear. intros dom l x N Hl Hx. assert (Fs : map fst (map (fun xp : outcome * Qc => (fst xp, Some (snd xp))) (combine dom l)) = dom).
  { rewrite map_map. cbn. clear - Hl. revert l Hl. induction dom as [|y dom IH]; intros [|q l] Hl; cbn in *; try discriminate; auto. f_equal. apply IH. lia. }
  apply complete_given; [unfold is_dict; rewrite Fs; auto|]. unfold gives. apply in_map_iff. exists (x, nth (pos x dom) l 0). split; auto. clear - Hl Hx. revert l Hl. induction dom as [|y dom IH]; intros [|q l] Hl; cbn in *; try discriminate; [destruct Hx|].
  destruct (Qc_eq_dec x y) as [->|Ne]; [left; auto|]. destruct Hx as [->|Hx]; [congruence|]. right. apply IH; auto.
Qed.
Lemma map_pos : forall (dom : list outcome) (l : list Qc), NoDup dom -> length l = length dom -> map (fun x => nth (pos x dom) l 0) dom = l.
Proof.
  clear. intros dom l N Hl. apply List.nth_ext with 0 0; [rewrite map_length; auto|]. intros i Hi. rewrite map_length in Hi. assert (E := map_nth_error (fun x => nth (pos x dom) l 0) _ _ (nth_error_nth' dom 0 Hi)).
  rewrite (nth_error_nth _ _ 0 E). rewrite pos_of_nth; auto.
Qed.
(* the tables that behavior_to_cpd builds *)
Lemma tables_full : forall b, behaves g b -> compatible m n sg ->
  exists ts, map_r (fun d => dom <- dict_get d (doms n) ;; init_table (ngraph n) (doms n) (cards_of n) d (mkFn [] true (action_prob m n ks b d)) dom KStoch) sg = Ok ts /\ acts n sg ts (played b) /\
    forall t, In t ts -> table_ok n (tvar t) t /\ tkind t = KStoch.
Proof.
  intros b Bb Cm. destruct vs_facts as (_ & Iv & Is).
  set (c := fun d pv => complete (D d) (entries_of b d pv)). exists (map (fun d => col_tab n d (c d) KStoch) sg).
  assert (Nth : forall d a, In d sg -> (forall u, edge (ngraph n) u d -> In (a u) (D u)) -> In (a d) (D d) -> c d (ctx a (parents (ngraph n) d)) (a d) = played b d a).
  { intros d a Hs Ha Hx. destruct (decision_key d a Hs Ha) as (k & ag & s & X1 & X2 & X3 & X4 & X5 & X6). destruct (Bb k s ag X3 X4) as (Len & _). rewrite (X6 Cm) in Len.
    unfold c, entries_of, played. rewrite X1. replace (find key_dec (ag, ctx a (parents (ngraph n) d)) ks) with (Some k) by (symmetry; exact X2). apply complete_combine; auto. apply dom_nodup; auto. }
  split.
  - apply map_r_all. assert (G : forall d, In d sg -> (dom <- dict_get d (doms n) ;; init_table (ngraph n) (doms n) (cards_of n) d (mkFn [] true (action_prob m n ks b d)) dom KStoch) = Ok (col_tab n d (c d) KStoch)).
    { intros d Hs. assert (Hn : In d (nodes (ngraph n))) by auto. destruct (dist_lookup n d Hd Hn) as [Ld _]. unfold dict_get. rewrite Ld. cbn [bind]. apply forced_col; auto. intros pv Hp.
      destruct (context_is_ctx _ _ _ (nodup_parents _ d (proj1 (proj1 Hd))) Hp) as (a & -> & Ha). assert (Ha' : forall u, edge (ngraph n) u d -> In (a u) (D u)) by (intros u K; apply Ha; apply edge_parents; auto).
      destruct (decision_key d a Hs Ha') as (k & ag & s & X1 & X2 & X3 & X4 & X5 & X6). destruct (Bb k s ag X3 X4) as (Len & Nn & Sm). rewrite (X6 Cm) in Len.
      assert (Np : ~ In d (parents (ngraph n) d)) by (intro K; apply edge_parents in K; apply (no_self_edge _ _ (proj2 (proj1 Hd)) K)).
      assert (Ex : forall x, In x (D d) -> c d (ctx a (parents (ngraph n) d)) x = nth (pos x (D d)) (b k) 0).
      { intros x Hx. unfold c, entries_of. rewrite X1. replace (find key_dec (ag, ctx a (parents (ngraph n) d)) ks) with (Some k) by (symmetry; exact X2). apply complete_combine; auto. apply dom_nodup; auto. }
      assert (Ee : entries_of b d (ctx a (parents (ngraph n) d)) = map (fun xp => (fst xp, Some (snd xp))) (combine (D d) (b k))) by (unfold entries_of; rewrite X1; replace (find key_dec (ag, ctx a (parents (ngraph n) d)) ks) with (Some k) by (symmetry; exact X2); auto).
      assert (Em : map (c d (ctx a (parents (ngraph n) d))) (D d) = b k).
      { rewrite (map_ext_in _ (fun x => nth (pos x (D d)) (b k) 0)) by auto. assert (Nd := dom_nodup n d Hd Hn). apply map_pos; auto. }
      split; [|split].
      - unfold stochastic_function, call. cbn [binds varkw params keys map orb forallb andb body]. unfold action_prob. unfold dict_get. rewrite X1. cbn [bind]. replace (find key_dec (ag, ctx a (parents (ngraph n) d)) ks) with (Some k) by (symmetry; exact X2). rewrite Ld. cbn [bind]. replace (length (b k) <=? length (D d))%nat with true by (symmetry; apply Nat.leb_le; lia). cbn [bind]. rewrite Ee. reflexivity.
      - rewrite Ee, map_map. cbn. intros x K. apply in_map_iff in K. destruct K as ([y q] & <- & K). apply in_combine_l in K. auto.
      - change (prob_column (map (c d (ctx a (parents (ngraph n) d))) (D d))). rewrite Em. apply exact_column; auto. }
    clear - G. induction sg as [|d l IH]; [constructor|]. constructor; [apply G; left; auto|apply IH; intros; apply G; right; auto].
  - assert (Ac : acts n sg (map (fun d => col_tab n d (c d) KStoch) sg) (played b)).
    { split; [rewrite map_map; cbn; apply map_id|]. intros t a Ht Wa. apply in_map_iff in Ht. destruct Ht as (d & <- & Hs). rewrite col_entry; auto. cbn [col_tab tvar]. apply Nth; auto. intros u K. apply Wa. apply (proj1 (proj1 Hd)) in K. tauto. }
    split; [exact Ac|]. intros t Ht. apply in_map_iff in Ht. destruct Ht as (d & <- & Hs). split; [|reflexivity]. cbn [col_tab tvar]. assert (Hn : In d (nodes (ngraph n))) by auto. apply col_ok; auto. intros pv Hp.
    destruct (context_is_ctx _ _ _ (nodup_parents _ d (proj1 (proj1 Hd))) Hp) as (a & -> & Ha). assert (Ha' : forall u, edge (ngraph n) u d -> In (a u) (D u)) by (intros u K; apply Ha; apply edge_parents; auto).
    assert (Np : ~ In d (parents (ngraph n) d)) by (intro K; apply edge_parents in K; apply (no_self_edge _ _ (proj2 (proj1 Hd)) K)). destruct (played_policy b Bb Cm d Hs) as (P1 & P2 & P3).
    assert (Ex : forall x, In x (D d) -> c d (ctx a (parents (ngraph n) d)) x = played b d (upd a d x)).
    { intros x Hx. assert (X := Nth d (upd a d x) Hs). rewrite upd_same in X. replace (ctx (upd a d x) (parents (ngraph n) d)) with (ctx a (parents (ngraph n) d)) in X by (unfold ctx; apply map_ext_in; intros u K; rewrite upd_other; auto; intros ->; auto).
      apply X; auto. intros u K. rewrite upd_other; auto. intros ->. apply edge_parents in K. auto. }
    split; [intros x Hx; rewrite Ex; auto|]. transitivity (qsum (map (fun x => played b d (upd a d x)) (D d))); [apply qsum_ext; auto|apply P3; auto].
Qed.
Lemma tables_played : forall b, behaves g b -> compatible m n sg ->
  exists ts, map_r (fun d => dom <- dict_get d (doms n) ;; init_table (ngraph n) (doms n) (cards_of n) d (mkFn [] true (action_prob m n ks b d)) dom KStoch) sg = Ok ts /\ acts n sg ts (played b).
Proof. intros b Bb Cm. destruct (tables_full b Bb Cm) as (ts & E & A & _). eauto. Qed.
End play.
