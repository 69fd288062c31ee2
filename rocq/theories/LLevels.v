(* The loops of macid_to_efg over the variables and the positions. *)
From Coq Require Import String List Bool Arith QArith Qcanon Lia Permutation.
Import ListNotations.
From Verif Require Import MBase MGraph MMacid MCpd MNet MProb MQuery MGame Spec SpecM SpecC SpecN SpecQ SpecPol SpecGame LBase LGraph LRoles LQc LCpd LNet LCheck LSum LBayes LQuery LFactor LBuilt LTotal PQuery LGame LGrow LTree.
Local Open Scope nat_scope.

Lemma position_init : forall n vs p j, position n vs (p ++ [j]) -> exists v, at_variable vs p v /\ position n vs p /\ j < length (dom_of (doms n) v).
Proof.
  unfold at_variable. intros n vs. induction vs as [|w vs IH]; intros [|i p] j H; cbn in *; try tauto; [exists w; tauto|]. destruct H as [H1 H2]. destruct (IH p j H2) as (v & K1 & K2 & K3). exists v. auto.
Qed.
Lemma combine_seq_at : forall (A : Type) (l : list A) done i x rest, combine (seq 0 (length l)) l = done ++ (i, x) :: rest -> i = length done /\ nth_error l i = Some x.
Proof.
  intros A l. assert (G : forall l k done i (x : A) rest, combine (seq k (length l)) l = done ++ (i, x) :: rest -> i = k + length done /\ nth_error l (length done) = Some x).
  { clear l. induction l as [|y l IH]; intros k [|[j z] done] i x rest H; cbn in H; try discriminate.
    - injection H as -> -> _. cbn. split; auto.
    - injection H as _ _ H. apply IH in H. cbn. destruct H as [-> H]. split; auto. lia. }
  intros done i x rest H. apply G in H. destruct H as [-> H]. auto.
Qed.

Section levels.
Variables (o : order) (m : macid) (n0 : net) (sg : list node) (ags : list agent) (vs : list node).
Hypothesis O : valid_order o.
Hypothesis Nv : NoDup vs.
Local Notation dom v := (dom_of (doms n0) v).
Local Notation cards := (map (fun v => length (dom_of (doms n0) v)) vs).
Local Notation grown := (grown o m n0 sg ags vs).

Definition level_inv (i : nat) (done : list (list nat)) (n : net) (t : tree) : Prop :=
  exists L, grown L n t /\ forall p, In p L <-> position n0 vs p /\ (length p < i \/ In (0 :: p) done).
Definition outer_inv (done : list (nat * node)) (n : net) (t : tree) : Prop :=
  exists L, grown L n t /\ forall p, In p L <-> position n0 vs p /\ length p < length done.

Lemma level_indices : forall i idx, In idx (indices (firstn i cards)) <-> exists p, idx = 0 :: p /\ length p = Nat.min i (length vs) /\ position n0 vs p.
Proof.
  intros i idx. rewrite firstn_map, indices_spec. rewrite firstn_length. split; intros (p & -> & E & P); exists p; (split; [auto|]; split; [auto|]); apply (position_firstn n0 vs p i); auto; lia.
Qed.
Lemma level_ready : forall i v done idx rest n t, nth_error vs i = Some v -> indices (firstn i cards) = done ++ idx :: rest -> level_inv i done n t ->
  exists p L, idx = 0 :: p /\ length p = i /\ position n0 vs p /\ at_variable vs p v /\ grown L n t /\ ~ In p L /\ state_of t (0 :: p) = history n0 vs p /\ (forall q, In q L <-> position n0 vs q /\ (length q < i \/ In (0 :: q) done)).
Proof.
  intros i v done idx rest n t Hv E (L & G & HL). assert (Hi : i < length vs) by (apply nth_error_Some; congruence).
  assert (K : In idx (indices (firstn i cards))) by (rewrite E; apply in_app_iff; right; left; auto). apply level_indices in K. destruct K as (p & -> & Lp & Pp). rewrite Nat.min_l in Lp by lia.
  assert (Np : ~ In p L). { intro K. apply HL in K. destruct K as [_ [K|K]]; [lia|]. pose proof (indices_nodup (firstn i cards)) as N. rewrite E in N. apply NoDup_remove_2 in N. apply N. apply in_app_iff. auto. }
  exists p, L. split; [auto|]. split; [auto|]. split; [auto|]. split; [unfold at_variable; rewrite Lp; auto|]. split; [auto|]. split; [auto|]. split; [|auto].
  destruct (rev p) as [|j r] eqn:Er.
  - assert (p = []) by (rewrite <- (rev_involutive p), Er; auto). subst p. rewrite (gr_root _ _ _ _ _ _ _ _ _ G). destruct vs; auto.
  - assert (Ep : p = rev r ++ [j]) by (rewrite <- (rev_involutive p), Er; auto). rewrite Ep in Pp |- *. destruct (position_init n0 vs (rev r) j Pp) as (w & Aw & Pw & Hj). apply (gr_state _ _ _ _ _ _ _ _ _ G (rev r) j w); auto. apply HL. split; auto. left. rewrite Ep, app_length in Lp. cbn in Lp. lia.
Qed.
Lemma level_next : forall i done p L n t, position n0 vs p -> (forall q, In q L <-> position n0 vs q /\ (length q < i \/ In (0 :: q) done)) -> grown (p :: L) n t -> level_inv i (done ++ [0 :: p]) n t.
Proof.
  intros i done p L n t Pp HL G. exists (p :: L). split; auto. intro q. cbn. rewrite HL, in_app_iff. cbn. split.
  - intros [<-|K]; [split; auto|tauto].
  - intros [Pq [K|[K|[K|[]]]]]; [tauto|tauto|]. injection K as ->. auto.
Qed.
Lemma level_start : forall done (x : nat * node) n t, outer_inv done n t -> fst x = length done -> level_inv (fst x) [] n t.
Proof. intros done [i v] n t (L & G & HL) E. cbn in *. subst i. exists L. split; auto. intro p. rewrite HL. cbn. tauto. Qed.
Lemma level_end : forall done (x : nat * node) n t, fst x = length done -> length done < length vs -> level_inv (fst x) (indices (firstn (fst x) cards)) n t -> outer_inv (done ++ [x]) n t.
Proof.
  intros done [i v] n t E Le (L & G & HL). cbn in *. subst i. exists L. split; auto. intro p. rewrite HL, app_length. cbn. split; intros [Pp K]; (split; [auto|]).
  - destruct K as [K|K]; [lia|]. apply level_indices in K. destruct K as (q & E & K & _). injection E as <-. lia.
  - destruct (Nat.eq_dec (length p) (length done)) as [E|E]; [|left; lia]. right. apply level_indices. exists p. split; auto. split; auto. lia.
Qed.
Lemma start_grown : forall n, later n0 n -> outer_inv [] n (mkTree (mkGame ags [] [] []) [] []).
Proof.
  intros n Ln. exists []. split; [|intro p; cbn; split; [tauto|lia]].
  constructor; cbn; auto; try (intros; tauto); try (intros p k B; destruct B); try (split; constructor); constructor.
Qed.
Lemma grow_all : forall n t n' t', later n0 n -> t = mkTree (mkGame ags [] [] []) [] [] -> loop_tree (grow o m sg cards) n t (combine (seq 0 (length vs)) vs) = (n', Ok t') ->
  exists L, grown L n' t' /\ forall p, In p L <-> position n0 vs p /\ length p < length vs.
Proof.
  intros n t n' t' Ln -> H. apply (loop_inv _ _ outer_inv) in H; [| |apply start_grown; auto].
  - destruct H as (L & G & HL). exists L. split; auto. intro p. rewrite HL. rewrite combine_length, seq_length, Nat.min_id. tauto.
  - clear - O Nv. intros done [i v] rest n t n' t' E Iv H. apply combine_seq_at in E. destruct E as [-> E]. assert (Le : length done < length vs) by (apply nth_error_Some; congruence).
    apply level_end; auto. unfold grow in H. cbn [fst snd] in H |- *. apply (loop_inv _ _ (level_inv (length done))) in H; auto; [|apply (level_start done (length done, v)); auto].
    clear n t n' t' Iv H. intros d2 idx rest2 n t n' t' E2 Iv H. destruct (level_ready (length done) v d2 idx rest2 n t E E2 Iv) as (p & L & -> & Lp & Pp & Ap & G & Np & St & HL).
    eapply level_next; eauto. eapply grow_step; eauto.
Qed.

(* ---- the payoffs ---- *)
Definition paid_inv (t1 : tree) (done : list (list nat)) (n : net) (t : tree) : Prop :=
  later n0 n /\ g_players (t_game t) = g_players (t_game t1) /\ g_isets (t_game t) = g_isets (t_game t1) /\ g_moves (t_game t) = g_moves (t_game t1) /\ t_keys t = t_keys t1 /\ t_states t = t_states t1 /\
  (forall idx, In idx (map fst (g_payoffs (t_game t))) <-> In idx done) /\ NoDup (map fst (g_payoffs (t_game t))) /\
  forall idx us, In (idx, us) (g_payoffs (t_game t)) -> exists n1 n2, later n0 n1 /\ payoffs o m n1 (state_of t1 idx) ags = (n2, Ok us).
Lemma later_payoffs : forall c l n n' us, later n0 n -> payoffs o m n c l = (n', Ok us) -> later n0 n'.
Proof.
  intros c l. induction l as [|a l IH]; intros n n' us Ln H; cbn [payoffs] in H; [injection H as <- _; auto|]. destruct (expected_utility o m n c [] a) as [n1 [u|e]] eqn:E; [|discriminate].
  destruct (payoffs o m n1 c l) as [n2 [us2|e]] eqn:E2; [|discriminate]. cbn in H. injection H as <- _. apply (IH n1 n2 us2); auto. eapply later_utility; eauto.
Qed.
Lemma pay_step : forall t1 done idx n t n' t', ~ In idx done -> paid_inv t1 done n t -> add_payoff o m ags n t idx = (n', Ok t') -> paid_inv t1 (done ++ [idx]) n' t'.
Proof.
  intros t1 done idx n t n' t' Nd (I1 & I2 & I3 & I4 & I5 & I6 & I7 & I7' & I8) H. unfold add_payoff in H. destruct (get_cur_node (t_game t) idx) as [cur|] eqn:Ec; [|discriminate]. apply get_cur_node_ok in Ec. subst cur.
  destruct (payoffs o m n (state_of t idx) ags) as [n2 [us|e]] eqn:E; [|discriminate]. cbn in H. injection H as <- <-. unfold paid_inv. cbn [t_game g_players g_isets g_moves g_payoffs t_keys t_states].
  split; [eapply later_payoffs; eauto|]. do 5 (split; [auto|]). split.
  - intro j. cbn. rewrite in_app_iff, I7. cbn. tauto.
  - split; [cbn; constructor; auto; rewrite I7; auto|]. intros j us' [K|K]; [|auto]. injection K as <- <-. exists n, n2. split; auto. unfold state_of in *. rewrite <- I6. auto.
Qed.
Lemma pay_all : forall n1 t1 n' t', later n0 n1 -> g_payoffs (t_game t1) = [] -> loop_tree (add_payoff o m ags) n1 t1 (indices cards) = (n', Ok t') -> paid_inv t1 (indices cards) n' t'.
Proof.
  intros n1 t1 n' t' Ln Ep H. apply (loop_inv _ _ (paid_inv t1)) in H; auto.
  - clear - O Nv. intros done idx rest n t n' t' E Iv H. eapply pay_step; eauto. pose proof (indices_nodup cards) as N. rewrite E in N. apply NoDup_remove_2 in N. intro K. apply N. apply in_app_iff. auto.
  - unfold paid_inv. rewrite Ep. cbn. do 6 (split; [auto|]). split; [tauto|]. split; [constructor|tauto].
Qed.
End levels.
