(* Moral graphs: d-connection is connection in the moral graph of the ancestral set
   (Lauritzen, Dawid, Larsen and Leimer 1990).  Used for the trimming argument. *)
From Coq Require Import String List Bool Arith Lia.
Import ListNotations.
From Verif Require Import MBase MGraph MPaths Spec LBase LGraph LDfs LPaths LActive.

(* v and w are joined in the moral graph of g restricted to A *)
Definition mstep (g : graph) (A : node -> Prop) (v w : node) : Prop :=
  A v /\ A w /\ (edge g v w \/ edge g w v \/ exists c, A c /\ edge g v c /\ edge g w c).
(* a path in the moral graph that avoids Z *)
Inductive mconn (g : graph) (A : node -> Prop) (Z : list node) : node -> node -> Prop :=
| mconn_refl : forall v, ~ In v Z -> mconn g A Z v v
| mconn_step : forall u v w, ~ In u Z -> mstep g A u v -> mconn g A Z v w -> mconn g A Z u w.

Definition anc (g : graph) (S : list node) (v : node) : Prop := exists s, In s S /\ reach g v s.

Lemma anc_edge : forall g S u v, edge g u v -> anc g S v -> anc g S u.
Proof. intros g S u v E (s & H1 & H2). exists s. split; auto. econstructor; eauto. Qed.
Lemma anc_self : forall g S v, In v S -> anc g S v.
Proof. intros g S v H. exists v. split; auto. constructor. Qed.
Lemma mconn_l : forall g A Z u v, mconn g A Z u v -> ~ In u Z.
Proof. intros. destruct H; auto. Qed.
Lemma mconn_r : forall g A Z u v, mconn g A Z u v -> ~ In v Z.
Proof. induction 1; auto. Qed.
Lemma mconn_trans : forall g A Z u v w, mconn g A Z u v -> mconn g A Z v w -> mconn g A Z u w.
Proof. induction 1; auto. intros. econstructor; eauto. Qed.
Lemma mstep_sym : forall g A u v, mstep g A u v -> mstep g A v u.
Proof.
  intros g A u v (H1 & H2 & H). split; [auto|]. split; [auto|].
  destruct H as [H|[H|(c & H3 & H4 & H5)]]; auto. right; right. eauto.
Qed.
Lemma mconn_sym : forall g A Z u v, mconn g A Z u v -> mconn g A Z v u.
Proof.
  induction 1; [constructor; auto|]. eapply mconn_trans; [eassumption|].
  apply mstep_sym in H0. econstructor; [eapply mconn_l; eauto|eauto|constructor; auto].
Qed.
Lemma mconn_mono : forall g (A : node -> Prop) Z g' (A' : node -> Prop) Z' u v,
  (forall a b, edge g a b -> A a -> A b -> edge g' a b) -> (forall a, A a -> A' a) -> (forall a, In a Z' -> In a Z) ->
  mconn g A Z u v -> mconn g' A' Z' u v.
Proof.
  intros g A Z g' A' Z' u v HE HA HZ H. induction H; [constructor; auto|].
  destruct H0 as (B1 & B2 & B). eapply mconn_step; [auto| |eassumption].
  split; [auto|]. split; [auto|]. destruct B as [B|[B|(c & B3 & B4 & B5)]]; auto.
  right; right. exists c. auto.
Qed.

Section Moral.
  Variables (g : graph) (Z : list node) (x y : node).
  Hypothesis Hd : wf_dag g.
  Hypothesis HZ : incl Z (nodes g).
  Hypothesis Hx : In x (nodes g).
  Hypothesis Hy : In y (nodes g).
  Let A := anc g (x :: y :: Z).
  Let step := trail_step g Z (ancestors_of g Z).
  Let ball (n : node) (d : direction) : Prop := clos step (x, Up) (n, d).

  Lemma stepi : forall n d m d', In (m, d') (step (n, d)) <->
    match d' with
    | Up => edge g m n /\ (d = Up -> ~ In n Z) /\ (d = Down -> exists a, reach g n a /\ In a Z)
    | Down => edge g n m /\ ~ In n Z
    end.
  Proof. exact (in_step g Z Hd HZ). Qed.

  Lemma dconn_ball : dconn g Z x y -> exists d, ball y d.
  Proof.
    intros (HsZ & HtZ & p & (H1 & H2 & H3) & H4).
    destruct (from_to_inv _ _ _ H3) as [q [E1 E2]]. subst p.
    destruct (ball_complete g Z x Hd HZ HsZ q y H1 H4 E2) as [d [Hcl _]]. exists d. exact Hcl.
  Qed.
  Lemma ball_dconn : forall d, ~ In x Z -> ~ In y Z -> ball y d -> dconn g Z x y.
  Proof.
    intros d Hxz Hyz H. apply (ball_sound g Z x Hd HZ) in H. destruct H as (l & H1 & H2 & H3 & H4).
    split; [auto|]. split; [auto|]. eapply walk_to_path; eauto; [apply Hd|]. apply from_to_snoc; auto.
  Qed.

  Lemma ball_moral : ~ In y Z -> forall st d, clos step st (y, d) ->
    match st with
    | (n, Up) => A n -> ~ In n Z /\ mconn g A Z n y
    | (n, Down) => A n /\ forall p, ~ In p Z -> edge g p n -> mconn g A Z p y
    end.
  Proof.
    intros Hyz st d H. remember (y, d) as e eqn:E. induction H as [z|z m w Hin Hc IH]; subst.
    - destruct d.
      + intros _. split; auto. constructor; auto.
      + split; [apply anc_self; simpl; auto|]. intros p Hp He. eapply mconn_step; [auto| |constructor; auto].
        assert (A y) by (apply anc_self; simpl; auto). split; [eapply anc_edge; eauto|]. split; [auto|]. auto.
    - specialize (IH eq_refl). destruct z as [n dn], m as [m dm]. apply stepi in Hin.
      destruct dn, dm.
      + destruct Hin as (He & Hn & _). intro An. assert (Am : A m) by (eapply anc_edge; eauto).
        destruct (IH Am) as [B1 B2]. split; [auto|]. eapply mconn_step; [auto| |eauto]. split; [auto|]. split; [auto|]. auto.
      + destruct Hin as (He & Hn). intro An. destruct IH as [B1 B2]. split; [auto|]. apply B2; auto.
      + destruct Hin as (He & _ & Hn). destruct (Hn eq_refl) as (a & Ha & HaZ).
        assert (An : A n). { exists a. split; [simpl; auto|auto]. }
        assert (Am : A m) by (eapply anc_edge; eauto). destruct (IH Am) as [B1 B2].
        split; [auto|]. intros p Hp Hep. eapply mconn_step; [auto| |eauto].
        split; [eapply anc_edge; eauto|]. split; [auto|]. right; right. exists n. auto.
      + destruct Hin as (He & Hn). destruct IH as [B1 B2].
        assert (An : A n) by (eapply anc_edge; eauto). split; [auto|]. intros p Hp Hep.
        apply mconn_step with (v := n); [auto| |apply B2; auto]. split; [eapply anc_edge; eauto|]. split; [auto|]. auto.
  Qed.

  Lemma dconn_moral : dconn g Z x y -> mconn g A Z x y.
  Proof.
    intro H. destruct (dconn_ball H) as [d Hb]. destruct H as (H1 & H2 & _).
    apply (ball_moral H2 (x, Up) d Hb). apply anc_self. simpl; auto.
  Qed.

  Lemma anc_dec_Z : forall v, (exists a, reach g v a /\ In a Z) \/ ~ (exists a, reach g v a /\ In a Z).
  Proof.
    intro v. destruct (mem v (ancestors_of g Z)) eqn:E.
    - left. apply (in_anc g Z Hd HZ); auto.
    - right. intro H. apply (in_anc g Z Hd HZ) in H. congruence.
  Qed.
  (* walking down from a node without descendants in Z *)
  Lemma ball_down : forall v t, reach g v t -> ~ (exists a, reach g v a /\ In a Z) ->
    forall d, ball v d -> exists d', ball t d'.
  Proof.
    intros v t H. induction H as [v|v w t He Hr IH]; intros Hn d Hb; [eauto|].
    apply (IH) with (d := Down).
    - intros (a & H1 & H2). apply Hn. exists a. split; auto. econstructor; eauto.
    - eapply clos_snoc; [exact Hb|]. apply stepi. split; auto. intro Hz. apply Hn. exists v. split; auto. constructor.
  Qed.
  (* walking up from x *)
  Lemma ball_up : forall v, reach g v x -> ~ (exists a, reach g v a /\ In a Z) -> ball v Up.
  Proof.
    intros v H. remember x as t eqn:E. induction H as [v|v w t He Hr IH]; intros Hn; subst.
    - constructor.
    - assert (Hw : ~ (exists a, reach g w a /\ In a Z)).
      { intros (a & H1 & H2). apply Hn. exists a. split; auto. econstructor; eauto. }
      eapply clos_snoc; [apply (IH eq_refl Hx Hw)|]. apply stepi. split; auto. split; [|discriminate].
      intros _ Hz. apply Hw. exists w. split; auto. constructor.
  Qed.
  Definition open_node (v : node) : Prop :=
    ball v Up \/ (ball v Down /\ exists a, reach g v a /\ In a Z).
  Lemma arrive_down : forall v, A v -> ball v Down ->
    (exists d, ball y d) \/ ball v Up \/ (exists a, reach g v a /\ In a Z).
  Proof.
    intros v (s & Hs & Hr) Hb. destruct (anc_dec_Z v) as [Ha|Ha]; auto.
    destruct Hs as [<-|[<-|Hs]].
    - right; left. apply ball_up; auto.
    - left. eapply ball_down; eauto.
    - exfalso. apply Ha. eauto.
  Qed.
  Lemma arrive : forall v, A v -> ball v Down -> (exists d, ball y d) \/ open_node v.
  Proof. intros v Av Hb. destruct (arrive_down v Av Hb) as [H|[H|H]]; unfold open_node; auto. Qed.
  Lemma go_down : forall v w, open_node v -> ~ In v Z -> edge g v w -> ball w Down.
  Proof.
    intros v w Ho Hz He. destruct Ho as [Ho|[Ho _]]; eapply clos_snoc; try exact Ho; apply stepi; auto.
  Qed.
  Lemma moral_ball : forall v t, mconn g A Z v t -> t = y -> open_node v -> exists d, ball y d.
  Proof.
    intros v t H. induction H as [v Hv|u v w Hu Hs Hc IH]; intros Et Ho.
    - subst v. destruct Ho as [Ho|[Ho _]]; eauto.
    - specialize (IH Et). destruct Hs as (Au & Av & Hs). destruct Hs as [He|[He|(c & Ac & He1 & He2)]].
      + destruct (arrive v Av (go_down u v Ho Hu He)) as [H|H]; auto.
      + apply IH. left. destruct Ho as [Ho|[Ho Ha]]; eapply clos_snoc; try exact Ho; apply stepi; (split; [auto|]).
        * split; [auto|discriminate].
        * split; [discriminate|auto].
      + assert (Hb := go_down u c Ho Hu He1).
        destruct (arrive_down c Ac Hb) as [H|[H|H]]; auto.
        * destruct (anc_dec_Z c) as [Ha|Ha].
          -- apply IH. left. eapply clos_snoc; [exact Hb|]. apply stepi. split; [auto|]. split; [discriminate|auto].
          -- apply IH. left. eapply clos_snoc; [exact H|]. apply stepi. split; [auto|]. split; [|discriminate].
             intros _ Hz. apply Ha. exists c. split; auto. constructor.
        * apply IH. left. eapply clos_snoc; [exact Hb|]. apply stepi. split; [auto|]. split; [discriminate|auto].
  Qed.

  Lemma moral_dconn : dconn g Z x y <-> mconn g A Z x y.
  Proof.
    split; [apply dconn_moral|]. intro H.
    destruct (moral_ball x y H eq_refl) as [d Hb]; [left; constructor|].
    eapply ball_dconn; [eapply mconn_l; eauto|eapply mconn_r; eauto|exact Hb].
  Qed.
End Moral.
