(* Where a variable can switch off what a decision needs to know. *)
From Coq Require Import String List Bool Arith Lia.
Import ListNotations.
From Verif Require Import MBase MGraph MPaths Spec LBase LGraph LDfs LPaths LActive LMoral.
Local Open Scope string_scope.
Local Open Scope list_scope.

(* a directed path that does not meet d *)
Inductive off (g : graph) (d : node) : node -> node -> Prop :=
| off_refl : forall a, a <> d -> off g d a a
| off_step : forall a b c, a <> d -> edge g a b -> off g d b c -> off g d a c.
Lemma off_trans : forall g d a b c, off g d a b -> off g d b c -> off g d a c.
Proof. intros g d a b c H. induction H; auto. intros K. econstructor; eauto. Qed.
Lemma off_reach : forall g d a b, off g d a b -> reach g a b.
Proof. intros g d a b H. induction H; [constructor|econstructor; eauto]. Qed.
Lemma off_before : forall g d a b, acyclic g -> reach g a b -> reach g b d -> b <> d -> off g d a b.
Proof.
  intros g d a b Ac R Rd N. induction R as [b|a v b E R IH]; [constructor; auto|]. econstructor; [|eauto|auto]. intros ->. apply (Ac d). exists v. split; auto. eapply reach_trans; eauto.
Qed.
Lemma off_never : forall g d a b, reach g a b -> ~ reach g a d -> off g d a b.
Proof. intros g d a b R N. induction R as [b|a v b E R IH]; [constructor; intros ->; apply N; constructor|]. econstructor; [intros ->; apply N; constructor|eauto|]. apply IH. intro K. apply N. econstructor; eauto. Qed.
(* g without the edges out of c *)
Definition mute (g : graph) (c : node) : graph := mkG (nodes g) (filter (fun e => negb (String.eqb (fst e) c)) (edges g)).
Lemma mute_edge : forall g c a b, edge (mute g c) a b <-> edge g a b /\ a <> c.
Proof. intros g c a b. unfold edge, mute. cbn [edges]. rewrite filter_In, negb_true_iff. cbn [fst]. rewrite String.eqb_neq. tauto. Qed.
Lemma mute_wf : forall g c, wf_dag g -> wf_dag (mute g c).
Proof.
  intros g c [[W1 [W2 W3]] W4]. split; [split; [exact W1|split; [apply NoDup_filter; exact W2|intros u v E; apply mute_edge in E; apply W3; tauto]]|]. apply (acyclic_sub g (mute g c)); auto. intros u v E. apply mute_edge in E. tauto.
Qed.
(* the states that a search meets before the first of P *)
Inductive keep {A} (step : A -> list A) (P : A -> Prop) (s : A) : A -> Prop :=
| keep_start : keep step P s s
| keep_more : forall w c, keep step P s w -> In c (step w) -> ~ P c -> keep step P s c.
Lemma first_met : forall A (step : A -> list A) (P : A -> Prop), (forall a, P a \/ ~ P a) -> forall s t, clos step s t -> P t -> ~ P s -> exists w c, keep step P s w /\ In c (step w) /\ P c.
Proof.
  intros A step P Dec s t C Pt Ns. assert (X : P t -> exists w c, keep step P s w /\ In c (step w) /\ P c); [|auto]. clear Pt.
  assert (Y : keep step P s t \/ exists w c, keep step P s w /\ In c (step w) /\ P c).
  { apply (clos_ind_r _ step s (fun t => keep step P s t \/ exists w c, keep step P s w /\ In c (step w) /\ P c)) in C; auto; [left; constructor|]. intros y z _ [K|K] I; auto. destruct (Dec z); [right; eauto|left; econstructor; eauto]. }
  intro Pt. destruct Y as [Y|Y]; auto. exfalso. destruct Y; auto.
Qed.

Section Gate.
  Variables (g : graph) (d x y u : node) (Z : list node).
  Hypothesis W : wf_dag g.
  Hypothesis Hz : forall z, In z Z <-> (z = d \/ edge g z d) /\ z <> y.
  Hypothesis Eyd : edge g y d.
  Hypothesis Rxy : reach g x y.
  Hypothesis Du : descends g u d.
  Hypothesis Cn : dconn g Z y u.
  Hypothesis Off : ~ off g d x u.
  Let A (v : node) : Prop := reach g x v /\ reach g v d /\ v <> d.
  Let step := trail_step g Z (ancestors_of g Z).
  Let met (s : node * direction) : Prop := A (fst s).
  Lemma A_dec : forall v, A v \/ ~ A v.
  Proof. intro v. unfold A. destruct (reach_dec g (proj1 W) x v), (reach_dec g (proj1 W) v d), (String.string_dec v d); tauto. Qed.
  Lemma y_d : y <> d.
  Proof. intros E. rewrite E in Eyd. apply (proj2 W d). exists d. split; [auto|constructor]. Qed.
  Lemma A_y : A y.
  Proof. split; auto. split; [apply reach_edge; auto|apply y_d]. Qed.
  Lemma A_u : ~ A u.
  Proof. intros (_ & R & _). apply (proj2 W d). eapply descends_reach_trans; eauto. Qed.
  Lemma hz_in : incl Z (nodes g).
  Proof. intros z K. apply Hz in K. destruct K as [[->|K] _]; [apply (proj1 W) in Eyd; tauto|apply (proj1 W) in K; tauto]. Qed.
  Lemma hz_reach : forall z, In z Z -> reach g z d.
  Proof. intros z K. apply Hz in K. destruct K as [[->|K] _]; [constructor|apply reach_edge; auto]. Qed.
  Lemma stepg : forall n e m e', In (m, e') (step (n, e)) <->
    match e' with
    | Up => edge g m n /\ (e = Up -> ~ In n Z) /\ (e = Down -> exists a, reach g n a /\ In a Z)
    | Down => edge g n m /\ ~ In n Z
    end.
  Proof. exact (in_step g Z W hz_in). Qed.
  Lemma kept : forall n e, keep step met (u, Up) (n, e) -> ~ A n.
  Proof. intros n e K. change (~ met (n, e)). destruct K as [|w c K1 I N]; [exact A_u|exact N]. Qed.
  Lemma d_not_down : ~ keep step met (u, Up) (d, Down).
  Proof.
    intro K. remember (d, Down) as s eqn:Es. destruct K as [|[w e] c K1 I N]; [discriminate|]. rewrite Es in I. apply stepg in I. destruct I as [I1 I2]. apply kept in K1. apply I2. apply Hz. split; auto. intros ->. apply K1. apply A_y.
  Qed.
  Lemma only_up : forall s, keep step met (u, Up) s -> snd s = Up -> ~ reach g (fst s) d -> reach g (fst s) u.
  Proof.
    intros s K. induction K as [|[w e] [c e'] K IH I N]; cbn [fst snd] in *; intros E R; [constructor|]. subst e'. apply stepg in I. destruct I as (I1 & _ & I3). assert (Rw : ~ reach g w d) by (intro X; apply R; econstructor; eauto).
    destruct e; [|exfalso; destruct (I3 eq_refl) as (a & Ra & Ha); apply Rw; eapply reach_trans; [eauto|apply hz_reach; auto]]. econstructor; eauto.
  Qed.
  Lemma met_down : exists w e c, keep step met (u, Up) (w, e) /\ In (c, Down) (step (w, e)) /\ A c.
  Proof.
    destruct Cn as (_ & Nu & _). assert (Hyn : In y (nodes g)) by (apply (proj1 W) in Eyd; tauto). assert (Hun : In u (nodes g)) by (destruct (descends_last _ _ _ Du) as (w & _ & E); apply (proj1 W) in E; tauto).
    destruct (dconn_ball g Z u y W hz_in (dconn_sym _ _ _ _ Cn)) as (e & B).
    destruct (first_met _ step met (fun s => A_dec (fst s)) _ _ B) as ([w ew] & [c ec] & K1 & K2 & K3); [apply A_y|apply A_u|]. unfold met in K3. cbn [fst] in K3. exists w, ew, c. split; auto. split; auto. destruct ec; auto. exfalso.
    apply stepg in K2. destruct K2 as (I1 & I2 & I3). assert (Nw := kept _ _ K1). destruct K3 as (C1 & C2 & C3). assert (Rw : reach g x w) by (eapply reach_snoc; eauto).
    assert (Nd : ~ reach g w d).
    { intro R. destruct (String.string_dec w d) as [->|N]; [|apply Nw; repeat split; auto]. destruct ew; [apply (I2 eq_refl); apply Hz; split; auto; intro K; apply y_d; auto|]. apply d_not_down; auto. }
    destruct ew; [|destruct (I3 eq_refl) as (a & Ra & Ha); apply Nd; eapply reach_trans; [eauto|apply hz_reach; auto]].
    assert (Ru := only_up _ K1 eq_refl Nd). cbn [fst] in Ru. apply Off. apply (off_trans g d x c u); [apply off_before; auto; apply W|]. econstructor; eauto. apply off_never; auto.
  Qed.
  (* the search in the muted graph *)
  Variable c : node.
  Hypothesis Ac : A c.
  Definition Zc : list node := filter (fun v => negb (String.eqb v c)) (d :: parents g d).
  Lemma zc_in : forall z, In z Zc <-> (z = d \/ edge (mute g c) z d) /\ z <> c.
  Proof.
    intro z. unfold Zc. rewrite filter_In, negb_true_iff, String.eqb_neq, mute_edge. cbn [In]. rewrite in_parents. split.
    - intros [[<-|K] N]; auto.
    - intros [[->|[K N]] N']; auto.
  Qed.
  Let gm := mute g c.
  Let stepm := trail_step gm Zc (ancestors_of gm Zc).
  Lemma zc_nodes : incl Zc (nodes gm).
  Proof. intros z K. apply zc_in in K. destruct K as [[->|K] _]; [apply (proj1 W) in Eyd; tauto|]. apply mute_edge in K. destruct K as [K _]. apply (proj1 W) in K. tauto. Qed.
  Lemma stepc : forall n e m e', In (m, e') (stepm (n, e)) <->
    match e' with
    | Up => edge gm m n /\ (e = Up -> ~ In n Zc) /\ (e = Down -> exists a, reach gm n a /\ In a Zc)
    | Down => edge gm n m /\ ~ In n Zc
    end.
  Proof. exact (in_step gm Zc (mute_wf g c W) zc_nodes). Qed.
  Let ball n e := clos stepm (u, Up) (n, e).
  Lemma falls : forall n a, reach g n a -> In a Z -> ball n Down -> (exists a', reach gm n a' /\ In a' Zc) \/ ball c Down.
  Proof.
    intros n a R. induction R as [a|n v a E R IH]; intros Ha B.
    - destruct (String.string_dec a c) as [->|N]; auto. left. exists a. split; [constructor|]. apply zc_in. apply Hz in Ha. split; auto. destruct Ha as [[->|K] _]; [auto|right; apply mute_edge; auto].
    - destruct (String.string_dec n c) as [->|N]; auto. destruct (in_dec String.string_dec n Zc) as [I|I]; [left; exists n; split; [constructor|auto]|].
      assert (Em : edge gm n v) by (apply mute_edge; auto). destruct IH as [(a' & K1 & K2)|K]; auto; [eapply clos_snoc; [exact B|]; apply stepc; auto|]. left. exists a'. split; auto. econstructor; eauto.
  Qed.
  Lemma clear_z : forall n, ~ A n -> ~ In n Z -> ~ In n Zc.
  Proof. intros n Na Nz K. apply zc_in in K. destruct K as [[->|K] N]; apply Nz; apply Hz; [split; auto; intro E; apply y_d; auto|]. apply mute_edge in K. split; [tauto|]. intros ->. apply Na, A_y. Qed.
  Lemma follows : forall s, keep step met (u, Up) s -> ball (fst s) (snd s) \/ ball c Down.
  Proof.
    intros s K. induction K as [|[n e] [n' e'] K IH I N]; cbn [fst snd] in *; [left; constructor|]. destruct IH as [B|B]; auto. assert (Nn := kept _ _ K). unfold met in N. cbn [fst] in N. assert (Nc : n <> c) by (intros ->; auto). assert (Nc' : n' <> c) by (intros ->; auto). apply stepg in I. destruct e'.
    - destruct I as (I1 & I2 & I3). assert (Em : edge gm n' n) by (apply mute_edge; auto). destruct e.
      + left. eapply clos_snoc; [exact B|]. apply stepc. split; auto. split; [|discriminate]. intros _. apply clear_z; auto.
      + destruct (I3 eq_refl) as (a & Ra & Ha). destruct (falls n a Ra Ha B) as [K'|K']; auto. left. eapply clos_snoc; [exact B|]. apply stepc. split; auto. split; [discriminate|auto].
    - destruct I as [I1 I2]. left. eapply clos_snoc; [exact B|]. apply stepc. split; [apply mute_edge; auto|apply clear_z; auto].
  Qed.
  Lemma u_zc : ~ In u Zc.
  Proof. intro K. apply A_u. exfalso. apply zc_in in K. apply (proj2 W d). apply (descends_reach_trans g d u d Du). destruct K as [[->|K] _]; [constructor|]. apply mute_edge in K. apply reach_edge; tauto. Qed.
  Lemma gate_dconn : forall w e, keep step met (u, Up) (w, e) -> In (c, Down) (step (w, e)) -> dconn gm Zc c u.
  Proof.
    intros w e K I. apply dconn_sym. apply (ball_dconn gm Zc u c (mute_wf g c W) zc_nodes Down); [apply u_zc|intro X; apply zc_in in X; tauto|].
    destruct (follows _ K) as [B|B]; auto. cbn [fst snd] in B. eapply clos_snoc; [exact B|]. apply stepg in I. destruct I as [I1 I2]. assert (Nw := kept _ _ K). apply stepc. split; [apply mute_edge; split; auto; intros ->; auto|apply clear_z; auto].
  Qed.
End Gate.
(* if a requisite observation y is downstream of x and x reaches the utility through d only, then some c between x and d is what the decision needs *)
Theorem gate : forall g d x y u Z, wf_dag g -> (forall z, In z Z <-> (z = d \/ edge g z d) /\ z <> y) -> edge g y d -> reach g x y -> descends g u d -> dconn g Z y u -> ~ off g d x u ->
  exists c Zc, reach g x c /\ reach g c d /\ c <> d /\ (forall z, In z Zc <-> (z = d \/ edge (mute g c) z d) /\ z <> c) /\ dconn (mute g c) Zc c u.
Proof.
  intros g d x y u Z W Hz Eyd Rxy Du Cn Off. destruct (met_down g d x y u Z W Hz Eyd Rxy Du Cn Off) as (w & e & c & K & I & Ac). exists c, (Zc g d c). destruct Ac as (A1 & A2 & A3). split; auto. split; auto. split; auto. split; [apply zc_in; auto|].
  eapply (gate_dconn g d x y u Z); eauto.
Qed.
