(* What a decision needs to know and can only learn downstream of x does not otherwise depend on anything downstream of x. *)
From Coq Require Import String List Bool Arith Lia.
Import ListNotations.
From Verif Require Import MBase MGraph MPaths Spec LBase LGraph LDfs LPaths LActive LMoral LGate.
Local Open Scope string_scope.
Local Open Scope list_scope.

(* g without the edges out of L *)
Definition silence (g : graph) (L : list node) : graph := mkG (nodes g) (filter (fun e => if in_dec String.string_dec (fst e) L then false else true) (edges g)).
Lemma silence_edge : forall g L a b, edge (silence g L) a b <-> edge g a b /\ ~ In a L.
Proof. intros g L a b. unfold edge, silence. cbn [edges]. rewrite filter_In. cbn [fst]. destruct (in_dec String.string_dec a L); split; intros [? ?]; split; auto; try discriminate; contradiction. Qed.
Lemma silence_wf : forall g L, wf_dag g -> wf_dag (silence g L).
Proof.
  intros g L [[W1 [W2 W3]] W4]. split; [split; [exact W1|split; [apply NoDup_filter; exact W2|intros u v E; apply silence_edge in E; apply W3; tauto]]|]. apply (acyclic_sub g (silence g L)); auto. intros u v E. apply silence_edge in E. tauto.
Qed.
Lemma listing : forall (P : node -> Prop) l, (forall v, P v \/ ~ P v) -> exists L, forall v, In v L <-> In v l /\ P v.
Proof.
  intros P l Dec. induction l as [|w l (L & IH)]; [exists []; intro v; split; [intros []|intros [[] _]]|]. destruct (Dec w) as [K|K].
  - exists (w :: L). intro v. cbn [In]. rewrite IH. split; [intros [<-|[? ?]]; auto|intros [[<-|?] ?]; auto].
  - exists L. intro v. cbn [In]. rewrite IH. split; [intros [? ?]; auto|intros [[<-|?] ?]; auto; contradiction].
Qed.

Section GateAll.
  Variables (g : graph) (d x y u : node) (Z L : list node).
  Hypothesis W : wf_dag g.
  Hypothesis Hz : forall z, In z Z <-> (z = d \/ edge g z d) /\ z <> y.
  Hypothesis Eyd : edge g y d.
  Hypothesis Rxy : reach g x y.
  Hypothesis Du : descends g u d.
  Hypothesis Cn : dconn g Z y u.
  Hypothesis Off : ~ off g d x u.
  Let A (v : node) : Prop := reach g x v /\ reach g v d /\ v <> d.
  Let step := trail_step g Z (ancestors_of g Z).
  Let met (s : node * direction) : Prop := A (fst s).
  Hypothesis HL : forall v, In v L <-> A v.
  Definition Zl : list node := d :: parents (silence g L) d.
  Lemma zl_in : forall z, In z Zl <-> z = d \/ edge (silence g L) z d.
  Proof. intro z. unfold Zl. cbn [In]. rewrite in_parents. split; intros [K|K]; auto. Qed.
  Let gm := silence g L.
  Let stepm := trail_step gm Zl (ancestors_of gm Zl).
  Lemma zl_nodes : incl Zl (nodes gm).
  Proof. intros z K. apply zl_in in K. destruct K as [->|K]; [apply (proj1 W) in Eyd; tauto|]. apply silence_edge in K. destruct K as [K _]. apply (proj1 W) in K. tauto. Qed.
  Lemma stepl : forall n e m e', In (m, e') (stepm (n, e)) <->
    match e' with
    | Up => edge gm m n /\ (e = Up -> ~ In n Zl) /\ (e = Down -> exists a, reach gm n a /\ In a Zl)
    | Down => edge gm n m /\ ~ In n Zl
    end.
  Proof. exact (in_step gm Zl (silence_wf g L W) zl_nodes). Qed.
  Let ball n e := clos stepm (u, Up) (n, e).
  Let found := exists c, A c /\ ball c Down.
  Lemma kept_all : forall n e, keep step met (u, Up) (n, e) -> ~ A n.
  Proof. exact (kept g d x u Z W Du). Qed.
  Lemma falls_all : forall n a, reach g n a -> In a Z -> ball n Down -> (exists a', reach gm n a' /\ In a' Zl) \/ found.
  Proof.
    intros n a R. induction R as [a|n v a E R IH]; intros Ha B.
    - destruct (A_dec g d x [] W a) as [K|K]; [right; exists a; auto|]. left. exists a. split; [constructor|]. apply zl_in. apply Hz in Ha. destruct Ha as [[->|Ha] _]; auto. right. apply silence_edge. split; auto. intro X. apply HL in X. contradiction.
    - destruct (A_dec g d x [] W n) as [K|K]; [right; exists n; auto|]. destruct (in_dec String.string_dec n Zl) as [I|I]; [left; exists n; split; [constructor|auto]|].
      assert (Em : edge gm n v) by (apply silence_edge; split; auto; intro X; apply HL in X; contradiction). destruct IH as [(a' & K1 & K2)|K']; auto; [eapply clos_snoc; [exact B|]; apply stepl; auto|]. left. exists a'. split; auto. econstructor; eauto.
  Qed.
  Lemma clear_all : forall n, ~ A n -> ~ In n Z -> ~ In n Zl.
  Proof. intros n Na Nz K. apply zl_in in K. assert (Ay := A_y g d x y W Eyd Rxy). destruct K as [->|K]; apply Nz; apply Hz; [split; auto; intro E; apply (y_d g d y W Eyd); auto|]. apply silence_edge in K. split; [tauto|]. intros ->. apply Na. exact Ay. Qed.
  Lemma follows_all : forall s, keep step met (u, Up) s -> ball (fst s) (snd s) \/ found.
  Proof.
    intros s K. induction K as [|[n e] [n' e'] K IH I N]; cbn [fst snd] in *; [left; constructor|]. destruct IH as [B|B]; auto. assert (Nn := kept_all _ _ K). unfold met in N. cbn [fst] in N. assert (Sg := stepg g d x y Z W Hz Eyd). apply Sg in I.
    assert (Nl : ~ In n L) by (intro X; apply HL in X; contradiction). assert (Nl' : ~ In n' L) by (intro X; apply HL in X; contradiction). destruct e'.
    - destruct I as (I1 & I2 & I3). assert (Em : edge gm n' n) by (apply silence_edge; auto). destruct e.
      + left. eapply clos_snoc; [exact B|]. apply stepl. split; auto. split; [|discriminate]. intros _. apply clear_all; auto.
      + destruct (I3 eq_refl) as (a & Ra & Ha). destruct (falls_all n a Ra Ha B) as [K'|K']; auto. left. eapply clos_snoc; [exact B|]. apply stepl. split; auto. split; [discriminate|auto].
    - destruct I as [I1 I2]. left. eapply clos_snoc; [exact B|]. apply stepl. split; [apply silence_edge; auto|apply clear_all; auto].
  Qed.
  Lemma all_dconn : exists c, A c /\ dconn gm Zl c u.
  Proof.
    assert (X : found).
    { destruct (met_down g d x y u Z W Hz Eyd Rxy Du Cn Off) as (w & e & c & K & I & Ac). destruct (follows_all _ K) as [B|B]; auto. exists c. split; auto. cbn [fst snd] in B. eapply clos_snoc; [exact B|]. apply (stepg g d x y Z W Hz Eyd) in I. destruct I as [I1 I2]. assert (Nw := kept_all _ _ K).
      apply stepl. split; [apply silence_edge; split; auto; intro Y; apply HL in Y; contradiction|apply clear_all; auto]. }
    destruct X as (c & Ac & B). exists c. split; auto. apply dconn_sym. apply (ball_dconn gm Zl u c (silence_wf g L W) zl_nodes Down); auto.
    - intro K. apply zl_in in K. apply (proj2 W d). apply (descends_reach_trans g d u d Du). destruct K as [->|K]; [constructor|]. apply silence_edge in K. apply reach_edge; tauto.
    - intro K. apply zl_in in K. destruct Ac as (A1 & A2 & A3). destruct K as [->|K]; [auto|]. apply silence_edge in K. apply (proj2 K). apply HL. split; auto.
  Qed.
End GateAll.
Theorem gate_all : forall g d x y u Z, wf_dag g -> (forall z, In z Z <-> (z = d \/ edge g z d) /\ z <> y) -> edge g y d -> reach g x y -> descends g u d -> dconn g Z y u -> ~ off g d x u ->
  exists c L Zl, (forall v, In v L <-> reach g x v /\ reach g v d /\ v <> d) /\ In c L /\ (forall z, In z Zl <-> z = d \/ edge (silence g L) z d) /\ dconn (silence g L) Zl c u.
Proof.
  intros g d x y u Z W Hz Eyd Rxy Du Cn Off. destruct (listing (fun v => reach g x v /\ reach g v d /\ v <> d) (nodes g) (A_dec g d x [] W)) as (L & HL).
  assert (HL' : forall v, In v L <-> reach g x v /\ reach g v d /\ v <> d). { intro v. rewrite HL. split; [tauto|]. intros (A1 & A2 & A3). split; auto. destruct A2 as [|? w ? E _]; [congruence|]. apply (proj1 W) in E. tauto. }
  destruct (all_dconn g d x y u Z L W Hz Eyd Rxy Du Cn Off HL') as (c & Ac & K). exists c, L, (Zl g d L). split; auto. split; [apply HL'; auto|]. split; auto. apply zl_in.
Qed.
