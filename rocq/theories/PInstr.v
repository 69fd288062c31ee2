(* C76: the graphical test for instrumental control incentives is sound and complete. *)
From Coq Require Import String List Bool Arith QArith Qcanon Lia Permutation.
Import ListNotations.
From Verif Require Import MBase MGraph MPaths MMacid MIncent MCpd MNet MProb MQuery Spec SpecM SpecI SpecC SpecN SpecQ SpecPol SpecGen LBase LGraph LQc LQcArith LSum LBayes LDo LEffects LValue LSearch LQuery LReq LPaths LControl LIncent PMacid PIncent PGen LCheck.
Local Open Scope string_scope.
Local Open Scope list_scope.
Local Open Scope Qc_scope.

(* ---- certain and impossible events ---- *)
Lemma do_force : forall n (iv : list (node * outcome)) a, do_joint n iv a <> 0 -> agrees iv a = true /\ forall v, In v (nodes (ngraph n)) -> ~ In v (keys iv) -> kernel n v a <> 0.
Proof.
  intros n iv a H. unfold do_joint in H. destruct (agrees iv a); [|congruence]. split; auto. intros v Hv Nv Z. apply H. apply (qprod_zero _ (fun v => if in_dec String.string_dec v (keys iv) then 1 else kernel n v a) _ v Hv). destruct (in_dec String.string_dec v (keys iv)); [contradiction|auto].
Qed.
Lemma do_certain : forall n (iv : list (node * outcome)) w z, distribution n -> NoDup (keys iv) -> incl (keys iv) (nodes (ngraph n)) -> in_domains n iv ->
  (forall a, within n a -> agrees iv a = true -> (forall v, In v (nodes (ngraph n)) -> ~ In v (keys iv) -> kernel n v a <> 0) -> a w = z) ->
  forall y, do_prob n iv [(w, y)] = if Qc_eq_dec y z then 1 else 0.
Proof.
  intros n iv w z Hd Ni Ii Di H y. assert (F : forall a, within n a -> do_joint n iv a <> 0 -> a w = z) by (intros a Wa J; destruct (do_force n iv a J); auto). destruct (Qc_eq_dec y z) as [->|Ny].
  - rewrite <- (do_prob_nil n iv Hd Ni Ii Di). unfold do_prob. apply total_ext_in. intros a Wa _. change (agrees [] a) with true. cbv iota. destruct (agrees [(w, z)] a) eqn:E; auto. destruct (Qc_eq_dec (do_joint n iv a) 0) as [Z|Z]; auto. exfalso.
    assert (agrees [(w, z)] a = true); [|congruence]. apply agrees_iff. intros v x [K|[]]. injection K as <- <-. apply F; auto.
  - unfold do_prob. rewrite (total_ext_in _ _ _ (fun _ => 0 * 0)); [rewrite total_scale; ring|]. intros a Wa _. destruct (agrees [(w, y)] a) eqn:E; [|ring]. destruct (Qc_eq_dec (do_joint n iv a) 0) as [Z|Z]; [rewrite Z; ring|]. exfalso.
    assert (a w = y) by (apply (proj1 (agrees_iff _ _) E); left; auto). assert (a w = z) by (apply F; auto). congruence.
Qed.
Lemma do_mean : forall n (iv : list (node * outcome)) w z, distribution n -> NoDup (keys iv) -> incl (keys iv) (nodes (ngraph n)) -> in_domains n iv -> In w (nodes (ngraph n)) -> In z (dom_of (doms n) w) ->
  (forall a, within n a -> agrees iv a = true -> (forall v, In v (nodes (ngraph n)) -> ~ In v (keys iv) -> kernel n v a <> 0) -> a w = z) -> expectation n iv [] w = z.
Proof.
  intros n iv w z Hd Ni Ii Di Hw Hz H. unfold expectation. rewrite (do_prob_nil n iv Hd Ni Ii Di). assert (Nd := dom_nodup n w Hd Hw). change (fold_right Qcplus 0) with qsum.
  rewrite (qsum_ext _ _ (fun x => if Qc_eq_dec x z then z else 0)).
  - clear - Hz Nd. induction (dom_of (doms n) w) as [|y l IH]; [destruct Hz|]. inversion Nd as [|? ? N1 N2]; subst. cbn [map]. match goal with |- qsum (?e :: ?r) = _ => change (e + qsum r = z) end. destruct (Qc_eq_dec y z) as [->|Ny].
    + rewrite (qsum_ext _ _ (fun _ => 0)); [rewrite qsum_zero; ring|]. intros x Hx. destruct (Qc_eq_dec x z); [subst; contradiction|auto].
    + destruct Hz as [Hz|Hz]; [congruence|]. rewrite IH by auto. ring.
  - intros x _. rewrite (do_certain n iv w z Hd Ni Ii Di H). destruct (Qc_eq_dec x z) as [->|]; [|replace (0 / 1) with 0 by (apply Qc_is_canon; reflexivity); ring]. replace (1 / 1) with 1 by (apply Qc_is_canon; reflexivity). ring.
Qed.

Lemma two_values : forall n (iv : list (node * outcome)) x p q, distribution n -> NoDup (keys iv) -> incl (keys iv) (nodes (ngraph n)) -> in_domains n iv -> p <> q -> do_prob n iv [(x, p)] + do_prob n iv [(x, q)] <= 1.
Proof.
  intros n iv x p q Dn N1 N2 N3 Ne. assert (E := do_prob_nil n iv Dn N1 N2 N3). set (t := do_prob n iv []) in E. rewrite <- E. unfold t, do_prob. rewrite <- total_plus. apply total_le. intros a Wa _. change (agrees [] a) with true. cbv iota.
  assert (J : 0 <= do_joint n iv a). { unfold do_joint. destruct (agrees iv a); [|apply Qcle_refl]. change (fold_right Qcmult 1) with qprod. apply qprod_nonneg. intros z Hz. apply in_map_iff in Hz. destruct Hz as (v & <- & Hv). match goal with |- context [if ?c then _ else _] => destruct c end; [discriminate|]. apply (k_nonneg _ _ _ (kernel_cond n Dn)); auto. }
  destruct (agrees [(x, p)] a) eqn:E0; destruct (agrees [(x, q)] a) eqn:E1; try (rewrite ?Qcplus_0_l, ?Qcplus_0_r; auto; apply Qcle_refl). exfalso. assert (a x = p) by (apply (proj1 (agrees_iff _ _) E0); left; auto). assert (a x = q) by (apply (proj1 (agrees_iff _ _) E1); left; auto). congruence.
Qed.

(* ---- a line of copies ---- *)
Lemma line : forall g s t, wf_dag g -> reach g s t -> exists par : node -> option node,
  (forall v q, par v = Some q -> edge g q v /\ v <> s /\ reach g s v /\ reach g v t) /\
  forall (a : asg) (free : node -> Prop), (forall v, v <> s -> reach g s v -> reach g v t -> free v) -> (forall v q, free v -> par v = Some q -> a v = a q) -> a t = a s.
Proof.
  intros g s t W R. induction R as [s|s y t E R (par & P1 & P2)].
  - exists (fun _ => None). split; [discriminate|auto].
  - assert (Nys : forall v, reach g y v -> v <> s) by (intros v K ->; apply (proj2 W s); exists y; auto).
    exists (fun v => if string_dec v y then Some s else par v). split.
    + intros v q K. destruct (string_dec v y) as [->|N].
      * injection K as <-. split; auto. split; [apply Nys; constructor|]. split; auto. apply reach_edge; auto.
      * destruct (P1 v q K) as (K1 & K2 & K3 & K4). split; auto. split; [apply Nys; auto|]. split; auto. econstructor; eauto.
    + intros a free F H. transitivity (a y).
      * apply (P2 a (fun v => free v /\ v <> y)); [intros v K1 K2 K3; split; auto; apply F; auto; econstructor; eauto|]. intros v q [K1 K2] K. apply H; auto. destruct (string_dec v y); [contradiction|auto].
      * apply H; [apply F; auto; [apply Nys; constructor|apply reach_edge; auto]|]. destruct (string_dec y y); congruence.
Qed.
Definition copying (par : node -> option node) (v : node) (a : asg) : Qc := point (match par v with Some q => a q | None => 0 end) (a v).
Lemma copying_ok : forall g par, wf_dag g -> (forall v q, par v = Some q -> edge g q v) -> conditionals g (fun _ => bin) (copying par).
Proof.
  intros g par W P. split; [|split].
  - intros v a a' Hv E H. unfold copying. rewrite E. destruct (par v) as [q|] eqn:Eq; auto. rewrite (H q); auto.
  - intros v a _. unfold copying, point. destruct (oeqb _ _); discriminate.
  - intros v a _ H. unfold copying. cbn [map bin fold_right]. rewrite !upd_same. destruct (par v) as [q|] eqn:Eq; [|apply point_sum; left; auto]. assert (Nq : q <> v) by (intros ->; apply P in Eq; apply (proj2 W v); exists v; split; [auto|constructor]). rewrite !upd_other by auto. apply point_sum. apply H. apply P; auto.
Qed.

(* ---- C76 ---- *)
(* wherever the test says yes there are conditional probabilities, entered with add_cpds, under which X does what D is set to, the utility is what X is
   set to, and D influences the utility through X only *)
Theorem C76_ici : forall k m d x, valid m -> SpecI.proper k m -> single_agent m -> In x (nodes (mgraph m)) -> In d (nodes (mgraph m)) ->
  admits_ici m d x = Ok true ->
  exists l n u, (forall v r, In (v, r) l -> admissible v r) /\ add_cpds (bare (mgraph m)) l = (n, None) /\ built n /\ distribution n /\ ngraph n = mgraph m /\
    is_utility m u /\ (forall v, In v (nodes (mgraph m)) -> Permutation (dom_of (doms n) v) [0; 1]) /\
    forall y, In y [0; 1] ->
      do_prob n [(d, y)] [(x, y)] = 1 /\ expectation n [(d, y)] [] u = y /\ expectation n [(x, y)] [] u = y /\
      forall w, In w [0; 1] -> x <> d -> expectation n [(d, w); (x, y)] [] u = y.
Proof.
  intros k m d x V Pr Sa Hx Hd Av. destruct (C27_ici k m d x V Pr Sa Hx Hd) as (b & Eb & Kb). rewrite Av in Eb. injection Eb as <-. destruct (proj1 Kb eq_refl) as (u & p & Hu & Hp & Xp). assert (W : wf_dag (mgraph m)) by apply V.
  set (g := mgraph m) in *. assert (Hun : In u (nodes g)) by (destruct Hu as (a & Hu); apply (proj2 (proj2 V) a u); right; auto).
  assert (Rs : reach g d x /\ reach g x u).
  { destruct Hp as [Ch Ft]. clear - Ch Ft Xp. apply in_split in Xp. destruct Xp as (l1 & l2 & ->). split.
    - apply (path_reach g (l1 ++ [x])); [replace (l1 ++ x :: l2) with ((l1 ++ [x]) ++ l2) in Ch by (rewrite <- app_assoc; auto); eapply chain_app_l; [|exact Ch]; destruct l1; discriminate|]. apply from_to_snoc. split; auto. destruct Ft as [F1 F2]. destruct l1; auto.
    - apply (path_reach g (x :: l2)); [eapply chain_app_r; [discriminate|exact Ch]|]. destruct Ft as [F1 F2]. split; auto. rewrite rev_app_distr in F2. destruct (rev (x :: l2)) eqn:E; auto. cbn [rev] in E. destruct (rev l2); discriminate. }
  destruct Rs as [R1 R2]. destruct (line g d x W R1) as (p1 & P1 & Q1). destruct (line g x u W R2) as (p2 & P2 & Q2).
  set (par := fun v => match p1 v with Some q => Some q | None => p2 v end). assert (Pe : forall v q, par v = Some q -> edge g q v) by (intros v q K; unfold par in K; destruct (p1 v) eqn:E; [injection K as ->; apply P1 in E|apply P2 in K]; tauto).
  assert (L1 : forall v, v <> d -> reach g d v -> reach g v x -> p2 v = None). { intros v _ _ K. destruct (p2 v) eqn:E; auto. apply P2 in E. destruct E as (_ & E1 & E2 & _). exfalso. apply (proj2 W x). destruct (reach_descends _ _ _ E2) as [Y|Y]; [congruence|]. eapply descends_reach_trans; eauto. }
  assert (L2 : forall v, v <> x -> reach g x v -> p1 v = None). { intros v N K. destruct (p1 v) eqn:E; auto. apply P1 in E. destruct E as (_ & E1 & E2 & E3). exfalso. apply (proj2 W x). destruct (reach_descends _ _ _ K) as [Y|Y]; [congruence|]. eapply descends_reach_trans; eauto. }
  assert (Vl : value_lists g (fun _ => bin)). { intros v _. split; [|discriminate]. constructor; [intros [E|[]]; discriminate|]. constructor; [tauto|constructor]. }
  destruct (C73 g (fun _ => bin) (copying par) [] W Vl (copying_ok g par W Pe)) as (l & n & Hl & El & Bn & Dn & Eg & Pm & Kn & _).
  exists l, n, u. split; auto. split; auto. split; auto. split; auto. split; auto. split; auto. split; auto.
  assert (Dom : forall v y, In v (nodes g) -> In y [0; 1] -> In y (dom_of (doms n) v)) by (intros v y Hv Hy; eapply Permutation_in; [apply Permutation_sym; apply Pm; auto|auto]).
  assert (InD : forall iv : list (node * outcome), (forall v y, In (v, y) iv -> In v (nodes g) /\ In y [0; 1]) -> in_domains n iv).
  { intros iv H v y Hy. destruct (H v y Hy) as [K1 K2]. rewrite <- Eg in K1. destruct (dist_lookup n v Dn K1) as [Lv _]. exists (dom_of (doms n) v). split; auto. apply Dom; auto. rewrite <- Eg. auto. }
  (* the equations *)
  assert (Eqn : forall a (iv : list (node * outcome)), within n a -> (forall v, In v (nodes (ngraph n)) -> ~ In v (keys iv) -> kernel n v a <> 0) -> forall v q, In v (nodes g) -> ~ In v (keys iv) -> par v = Some q -> a v = a q).
  { intros a iv Wa K v q Hv Nv E. rewrite Eg in K. assert (X := K v Hv Nv). rewrite Kn in X; auto. unfold copying in X. rewrite E in X. unfold point in X. destruct (oeqb (a v) (a q)) eqn:Eo; [|congruence]. apply oeqb_iff in Eo. auto. }
  assert (Nr : forall v s, reach g s v -> In s (nodes g) -> In v (nodes g)). { intros v s R Hs. induction R as [|s y v E R IH]; auto. apply IH. apply (proj1 W) in E. tauto. }
  assert (D1 : forall a (iv : list (node * outcome)), within n a -> (forall v, In v (nodes (ngraph n)) -> ~ In v (keys iv) -> kernel n v a <> 0) -> (forall v, v <> d -> reach g d v -> reach g v x -> ~ In v (keys iv)) -> a x = a d).
  { intros a iv Wa K F. apply (Q1 a (fun v => In v (nodes g) /\ ~ In v (keys iv))); [intros v Y1 Y2 Y3; split; eauto|]. intros v q [Y1 Y2] E. apply (Eqn a iv Wa K); auto. unfold par. rewrite E. auto. }
  assert (D2 : forall a (iv : list (node * outcome)), within n a -> (forall v, In v (nodes (ngraph n)) -> ~ In v (keys iv) -> kernel n v a <> 0) -> (forall v, v <> x -> reach g x v -> reach g v u -> ~ In v (keys iv)) -> a u = a x).
  { intros a iv Wa K F. apply (Q2 a (fun v => In v (nodes g) /\ ~ In v (keys iv))); [intros v Y1 Y2 Y3; split; eauto|]. intros v q [Y1 Y2] E. apply (Eqn a iv Wa K); auto. unfold par. destruct (P2 v q E) as (_ & Z1 & Z2 & _). rewrite (L2 v Z1 Z2). auto. }
  assert (Up : forall v, v <> x -> reach g x v -> v <> d). { intros v N R ->. apply (proj2 W x). destruct (reach_descends _ _ _ R) as [Y|Y]; [congruence|]. eapply descends_reach_trans; eauto. }
  intros y Hy. rewrite <- Eg in Hx, Hd, Hun.
  assert (Iv1 : forall v, In v (nodes (ngraph n)) -> NoDup (keys [(v, y)]) /\ incl (keys [(v, y)]) (nodes (ngraph n)) /\ in_domains n [(v, y)]).
  { intros v Hv. split; [repeat constructor; intros []|]. split; [intros w [<-|[]]; auto|]. apply InD. intros w z [K|[]]. injection K as <- <-. rewrite <- Eg. auto. }
  assert (Ag : forall v a iv, agrees iv a = true -> In (v, y) iv -> a v = y) by (intros v a iv E K; apply (proj1 (agrees_iff _ _) E); auto).
  assert (Du : forall z, In z [0; 1] -> In z (dom_of (doms n) u)) by (intros z Hz; apply Dom; auto; rewrite <- Eg; auto).
  split; [|split; [|split]].
  - destruct (Iv1 d Hd) as (N1 & N2 & N3). rewrite (do_certain n [(d, y)] x y Dn N1 N2 N3); [destruct (Qc_eq_dec y y); [auto|congruence]|]. intros a Wa E K. rewrite (D1 a [(d, y)] Wa K); [apply (Ag d a _ E); left; auto|]. intros v Nv _ _ [Y|[]]. cbn in Y. congruence.
  - destruct (Iv1 d Hd) as (N1 & N2 & N3). apply do_mean; auto. intros a Wa E K. rewrite (D2 a [(d, y)] Wa K); [rewrite (D1 a [(d, y)] Wa K); [apply (Ag d a _ E); left; auto|]; intros v Nv _ _ [Y|[]]; cbn in Y; congruence|]. intros v Nv Y1 _ [Y|[]]. cbn in Y. apply (Up v Nv Y1). auto.
  - destruct (Iv1 x Hx) as (N1 & N2 & N3). apply do_mean; auto. intros a Wa E K. rewrite (D2 a [(x, y)] Wa K); [apply (Ag x a _ E); left; auto|]. intros v Nv _ _ [Y|[]]. cbn in Y. congruence.
  - intros w Hw Nxd. apply do_mean; auto.
    + constructor; [intros [K|[]]; auto|]. repeat constructor. intros [].
    + intros v [<-|[<-|[]]]; auto.
    + apply InD. rewrite Eg in Hx, Hd. intros v z [K|[K|[]]]; injection K as <- <-; auto.
    + intros a Wa E K. rewrite (D2 a [(d, w); (x, y)] Wa K); [apply (Ag x a _ E); right; left; auto|]. intros v Nv Y1 _ [Y|[Y|[]]]; cbn in Y; [apply (Up v Nv Y1)|]; congruence.
Qed.
Print Assumptions C76_ici.
(* soundness and completeness: the test says yes exactly if for some conditional probabilities D has an effect on X and X has an effect on a utility *)
Theorem C76_exact : forall k m d x, valid m -> SpecI.proper k m -> single_agent m -> In x (nodes (mgraph m)) -> In d (nodes (mgraph m)) ->
  (admits_ici m d x = Ok true <->
   exists n, distribution n /\ ngraph n = mgraph m /\
     (exists y y' z, In y (dom_of (doms n) d) /\ In y' (dom_of (doms n) d) /\ do_prob n [(d, y)] [(x, z)] <> do_prob n [(d, y')] [(x, z)]) /\
     exists u w w', is_utility m u /\ In w (dom_of (doms n) x) /\ In w' (dom_of (doms n) x) /\ expectation n [(x, w)] [] u <> expectation n [(x, w')] [] u).
Proof.
  intros k m d x V Pr Sa Hx Hd. assert (W : wf_dag (mgraph m)) by apply V. split.
  - intro Av. destruct (C76_ici k m d x V Pr Sa Hx Hd Av) as (l & n & u & _ & _ & _ & Dn & Eg & Hu & Pm & H). exists n. split; auto. split; auto.
    assert (Dom : forall v y, In v (nodes (mgraph m)) -> In y [0; 1] -> In y (dom_of (doms n) v)) by (intros v y Hv Hy; eapply Permutation_in; [apply Permutation_sym; apply Pm; auto|auto]).
    assert (I0 : In 0 [0; 1]) by (left; auto). assert (I1 : In 1 [0; 1]) by (right; left; auto). destruct (H 0 I0) as (A1 & A2 & A3 & _). destruct (H 1 I1) as (B1 & B2 & B3 & _). split.
    + exists 0, 1, 0. split; auto. split; auto. intro K. assert (K' := eq_trans (eq_sym A1) K). assert (Y : do_prob n [(d, 1)] [(x, 0)] + do_prob n [(d, 1)] [(x, 1)] <= 1); [|assert (Y' : 1 + 1 <= (1 : Qc)) by (rewrite K' at 1; rewrite <- B1 at 2; exact Y); vm_compute in Y'; apply Y'; reflexivity].
      assert (In1 : NoDup (keys [(d, 1)]) /\ incl (keys [(d, 1)]) (nodes (ngraph n)) /\ in_domains n [(d, 1)]).
      { split; [repeat constructor; intros []|]. rewrite <- Eg in Hd. split; [intros w [<-|[]]; auto|]. intros w z [E|[]]. injection E as <- <-. destruct (dist_lookup n d Dn Hd) as [Lv _]. exists (dom_of (doms n) d). split; auto. apply Dom; auto. rewrite <- Eg. auto. }
      destruct In1 as (N1 & N2 & N3). apply two_values; auto. discriminate.
    + exists u, 0, 1. split; auto. split; auto. split; auto. intro K. assert (K' := eq_trans (eq_sym A3) (eq_trans K B3)). discriminate.
  - intros (n & Dn & Eg & (y & y' & z & Hy & Hy' & Ne) & u & w & w' & Hu & Hw & Hw' & Ne'). destruct (C27_ici k m d x V Pr Sa Hx Hd) as (b & Eb & Kb). rewrite Eb. f_equal. apply Kb.
    assert (Hun : In u (nodes (mgraph m))) by (destruct Hu as (a & Hu); apply (proj2 (proj2 V) a u); right; auto).
    assert (Un : forall v y, In v (nodes (mgraph m)) -> In y (dom_of (doms n) v) -> forall c, incl (keys c) (nodes (ngraph n)) -> (forall t, In t (keys c) -> ~ reach (mgraph m) v t) -> do_prob n [(v, y)] c = do_prob n [] c).
    { intros v q Hv Hq c Ic H. rewrite <- Eg in Hv. apply do_prob_unaffected; auto; [repeat constructor; intros []|intros t [<-|[]]; auto| |].
      - intros t e [K|[]]. injection K as <- <-. destruct (dist_lookup n v Dn Hv) as [Lv _]. exists (dom_of (doms n) v). auto.
      - intros t e [<-|[]] He. rewrite Eg. apply H; auto. }
    assert (R1 : reach (mgraph m) d x). { destruct (reach_dec (mgraph m) (proj1 W) d x) as [|N]; auto. exfalso. apply Ne. rewrite !Un; auto; try (intros t [<-|[]]; auto; rewrite Eg; auto). }
    assert (R2 : reach (mgraph m) x u). { destruct (reach_dec (mgraph m) (proj1 W) x u) as [|N]; auto. exfalso. apply Ne'. unfold expectation. apply qsum_ext. intros q _. f_equal. rewrite !Un; auto; try (intros t [<-|[]]; auto; rewrite Eg; auto); intros t []. }
    destruct (reach_path _ _ _ R1) as (p1 & C1 & F1). destruct (reach_path _ _ _ R2) as (p2 & C2 & F2). apply from_to_inv in F1. destruct F1 as (q1 & -> & H1). destruct (from_to_cons_inv _ _ _ F2) as (q2 & ->).
    exists u, (q1 ++ x :: q2). split; auto. split; [|apply in_or_app; right; left; auto]. split; [apply chain_app; auto|]. split; [destruct q1; auto|]. destruct F2 as [_ F2]. rewrite rev_app_distr. destruct (rev (x :: q2)); [discriminate|auto].
Qed.
Print Assumptions C76_exact.
Example C76_example : valid ex24 /\ SpecI.proper IsCID ex24 /\ single_agent ex24 /\ In "D" (nodes (mgraph ex24)) /\ In "W" (nodes (mgraph ex24)) /\ In "U" (nodes (mgraph ex24)) /\
  admits_ici ex24 "D" "U" = Ok true /\ admits_ici ex24 "D" "W" = Ok false /\ admits_ici ex24 "D" "X" = Ok false.
Proof.
  destruct ex24_askable as (V & Pr & Sa & _). split; auto. split; auto. split; auto. split; [right; right; left; auto|]. split; [do 4 right; left; auto|]. split; [do 3 right; left; auto|]. repeat split; vm_compute; reflexivity.
Qed.
