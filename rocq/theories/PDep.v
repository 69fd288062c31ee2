(* Property C79: d-separation is conditional independence in every network with the graph. *)
From Coq Require Import String List Bool Arith QArith Qcanon Lia Permutation.
Import ListNotations.
From Verif Require Import MBase MGraph MPaths MCpd MNet MProb MQuery Spec SpecC SpecN SpecQ SpecPol SpecGen LBase LGraph LQc LSum LBayes LTotal LBest LIndep LCond LDep PQuery PGen PIndep.
From Verif Require PPaths POptDec LSearch.
Local Open Scope string_scope.
Local Open Scope list_scope.
Local Open Scope Qc_scope.

(* ---- C79 ---- *)
Definition chance (c : list (node * outcome)) (b : asg) : Qc := if agrees c b then 1 else 0.
Lemma chance_in : forall c b, (forall v x, In (v, x) c -> b v = x) -> chance c b = 1.
Proof. intros c b H. unfold chance. rewrite (proj2 (agrees_iff c b) H). auto. Qed.
(* a network entered with add_cpds in which x and y have values that are possible, but not together, given some values of Z *)
Theorem C79_dependent : forall g Z x y, wf_dag g -> incl Z (nodes g) -> In x (nodes g) -> is_dconnected g x y Z = Ok true ->
  exists l n (c : list (node * outcome)) vx vy, (forall v r, In (v, r) l -> admissible v r) /\ add_cpds (bare g) l = (n, None) /\ built n /\ distribution n /\ ngraph n = g /\ keys c = Z /\ in_domains n ((x, vx) :: (y, vy) :: c) /\
    do_prob n [] ((x, vx) :: (y, vy) :: c) = 0 /\ do_prob n [] ((x, vx) :: c) <> 0 /\ do_prob n [] ((y, vy) :: c) <> 0.
Proof.
  intros g Z x y W IZ Hx Dc. destruct (PPaths.C05_is_dconnected g x y Z W IZ Hx) as (t & Et & Kt). rewrite Dc in Et. injection Et as <-. destruct (proj1 Kt eq_refl) as (Zx & Zy & p & Sp & Ac). clear Kt.
  assert (Hy := LDep.Hy g x y p W Hx Sp).
  destruct (dependent_network g Z x y p W IZ Hx Zx Zy Sp Ac) as (D & K & a & a' & Vl & Cg & Wa & Wa' & Na & Na' & Ez & Im).
  destruct (C73 g D K [] W Vl Cg) as (l & n & Ad & Ea & B & Hd & Eg & Pd & Ek & _). set (c := map (fun z => (z, a z)) Z).
  assert (Kc : keys c = Z) by (unfold c, keys; rewrite map_map; cbn; apply map_id).
  assert (Dom : forall v q, In v (nodes g) -> In q (D v) -> In q (dom_of (doms n) v)) by (intros v q Hv Hq; apply (Permutation_in _ (Permutation_sym (Pd v Hv))); auto).
  assert (InD : forall v q, In v (nodes g) -> In q (D v) -> exists r, has_domain n v r /\ In q r). { intros v q Hv Hq. rewrite <- Eg in Hv. destruct (LSearch.dist_lookup n v Hd Hv) as [L _]. exists (dom_of (doms n) v). split; [exact L|]. apply Dom; auto. rewrite <- Eg; auto. }
  assert (Tot : forall c', do_prob n [] c' = total (dom_of (doms n)) (nodes g) (fun b => chance c' b * weight K (nodes g) b) (fun _ => 0)).
  { intro c'. rewrite prob_total, Eg. apply total_ext_in. intros b Wb _. unfold chance. f_equal. unfold joint, weight. rewrite Eg. apply qprod_ext. intros v Hv. apply Ek; auto. unfold within. rewrite Eg. auto. }
  assert (Won : on (fun v => In v (nodes g)) (weight K (nodes g))). { intros b b' E. unfold weight. apply qprod_ext. intros v Hv. destruct Cg as [L _]. apply L; auto. intros q Hq. apply E. apply (proj1 W) in Hq. tauto. }
  assert (Con : forall c', incl (keys c') (nodes g) -> on (fun v => In v (nodes g)) (chance c')) by (intros c' I; eapply on_mono; [|apply agrees_on]; auto).
  assert (Pos : forall c' b, incl (keys c') (nodes g) -> (forall v, In v (nodes g) -> In (b v) (D v)) -> (forall v q, In (v, q) c' -> b v = q) -> weight K (nodes g) b <> 0 -> do_prob n [] c' <> 0).
  { intros c' b Ic Wb Ag Nz E. rewrite Tot in E. set (b0 := fun v => if in_dec String.string_dec v (nodes g) then b v else 0). assert (B0 : forall v, In v (nodes g) -> b v = b0 v) by (intros v Hv; unfold b0; destruct (in_dec String.string_dec v (nodes g)); [auto|contradiction]).
    apply Nz. rewrite (Won b b0 B0). assert (X : chance c' b0 * weight K (nodes g) b0 = 0).
    - apply (total_zero_each (dom_of (doms n)) (nodes g) (fun b => chance c' b * weight K (nodes g) b) b0 (fun _ => 0)); auto.
      + intros b1 b2 Eb. rewrite (Won b1 b2), (Con c' Ic b1 b2); auto.
      + intros b1 _. apply Qc_mul_nonneg; [unfold chance; destruct (agrees c' b1); discriminate|]. apply qprod_nonneg. intros q Hq. apply in_map_iff in Hq. destruct Hq as (v & <- & Hv). destruct Cg as (_ & N & _). apply N; auto.
      + apply W.
      + intros v Hv. rewrite <- B0 by auto. apply Dom; auto.
      + intros v Nv. unfold b0. destruct (in_dec String.string_dec v (nodes g)); [contradiction|auto].
    - rewrite <- (Con c' Ic b b0 B0), chance_in, Qcmult_1_l in X; auto. }
  exists l, n, c, (a x), (a' y). split; [exact Ad|]. split; [exact Ea|]. split; [exact B|]. split; [exact Hd|]. split; [exact Eg|]. split; [exact Kc|].
  assert (Hc : forall v q, In (v, q) c -> In v Z /\ q = a v) by (intros v q Hv; apply in_map_iff in Hv; destruct Hv as (z & E & Hz); injection E as <- <-; auto).
  split; [|split; [|split]].
  - intros v q [E|[E|Hv]]; [injection E as <- <-; apply InD; auto|injection E as <- <-; apply InD; auto|]. apply Hc in Hv. destruct Hv as [Hv ->]. apply InD; auto.
  - rewrite Tot. transitivity (total (dom_of (doms n)) (nodes g) (fun _ => 0) (fun _ => 0)); [|apply total_zero]. apply total_ext_in. intros b Wb _. unfold chance. destruct (agrees ((x, a x) :: (y, a' y) :: c) b) eqn:E; [|apply Qcmult_0_l]. rewrite Qcmult_1_l. rewrite agrees_iff in E. apply Im.
    + intros v Hv. apply (Permutation_in _ (Pd v Hv)). auto.
    + apply E. left; auto.
    + apply E. right; left; auto.
    + intros z Hz. apply E. right; right. unfold c. apply in_map_iff. exists z. auto.
  - apply (Pos _ a); auto; [intros v [<-|Hv]; [auto|apply IZ; rewrite <- Kc; auto]|]. intros v q [E|Hv]; [injection E as <- <-; auto|apply Hc in Hv; symmetry; tauto].
  - apply (Pos _ a'); auto; [intros v [<-|Hv]; [auto|apply IZ; rewrite <- Kc; auto]|]. intros v q [E|Hv]; [injection E as <- <-; auto|]. apply Hc in Hv. destruct Hv as [Hv ->]. auto.
Qed.
Print Assumptions C79_dependent.

(* a value repeated in a context *)
Lemma known_value : forall (n : net) (x : node) (v w : outcome) (c : list (node * outcome)), In (x, w) c -> do_prob n [] ((x, v) :: c) = if Qc_eq_dec v w then do_prob n [] c else 0.
Proof.
  intros n x v w c Hc. rewrite !prob_total. destruct (Qc_eq_dec v w) as [->|Nv].
  - apply total_ext. intro b. f_equal. replace (agrees ((x, w) :: c) b) with (agrees c b); auto. apply eq_true_iff_eq. rewrite !agrees_iff. split; [intros E q r [K|K]; [injection K as <- <-|]; auto|intros E q r K; apply E; right; auto].
  - transitivity (total (dom_of (doms n)) (nodes (ngraph n)) (fun _ => 0) (fun _ => 0)); [|apply total_zero]. apply total_ext. intro b. destruct (agrees ((x, v) :: c) b) eqn:E; [|apply Qcmult_0_l]. rewrite agrees_iff in E. exfalso. apply Nv. rewrite <- (E x v), <- (E x w); [auto|right; auto|left; auto].
Qed.
Lemma known_independent : forall (n : net) (x : node) (v : outcome) (y : node) (vy : outcome) (c : list (node * outcome)), In x (keys c) -> do_prob n [] ((x, v) :: (y, vy) :: c) * do_prob n [] c = do_prob n [] ((x, v) :: c) * do_prob n [] ((y, vy) :: c).
Proof.
  intros n x v y vy c H. unfold keys in H. apply in_map_iff in H. destruct H as ((x', w) & E & H). cbn in E. subst x'. rewrite (known_value n x v w ((y, vy) :: c)), (known_value n x v w c) by (auto; right; auto). destruct (Qc_eq_dec v w); ring.
Qed.
(* is_dconnected says no exactly when x and y are conditionally independent given Z in every network with the graph *)
Theorem C79_exact : forall g Z x y, wf_dag g -> NoDup Z -> incl Z (nodes g) -> In x (nodes g) -> In y (nodes g) ->
  (is_dconnected g x y Z = Ok false <->
   forall n (c : list (node * outcome)) vx vy, built n -> distribution n -> ngraph n = g -> keys c = Z -> in_domains n ((x, vx) :: (y, vy) :: c) ->
     do_prob n [] ((x, vx) :: (y, vy) :: c) * do_prob n [] c = do_prob n [] ((x, vx) :: c) * do_prob n [] ((y, vy) :: c)).
Proof.
  intros g Z x y W NZ IZ Hx Hy. destruct (PPaths.C05_is_dconnected g x y Z W IZ Hx) as (t & Et & Kt). split.
  - intros E n c vx vy B Hd Eg Kc Dc. rewrite E in Et. injection Et as <-. destruct (in_dec String.string_dec x Z) as [Ix|Nx]; [apply known_independent; rewrite Kc; auto|]. destruct (in_dec String.string_dec y Z) as [Iy|Ny].
    + rewrite (do_prob_perm n [] ((x, vx) :: (y, vy) :: c) ((y, vy) :: (x, vx) :: c)) by apply perm_swap. rewrite (Qcmult_comm (do_prob n [] ((x, vx) :: c))). apply known_independent. rewrite Kc; auto.
    + assert (X := do_indep n [] x vx [(y, vy)] c Hd). rewrite Eg, Kc, app_nil_r in X. cbn [app] in X. apply X; auto; try (cbn; intros ? []; fail); try constructor; try (intros []; fail).
      * intros q [<-|[]] K. apply Kt in K. discriminate.
      * constructor.
      * intros v [<-|[]]. auto.
      * intros v [<-|[]]. auto.
      * intros v q K. apply Dc. right; right; auto.
      * intros v q [].
      * intros v q [K|[]]. apply Dc. right; left; auto.
      * destruct (Dc x vx (or_introl eq_refl)) as (r & Hr & K). unfold dom_of. rewrite Hr. auto.
  - intro H. destruct t; auto. exfalso. destruct (C79_dependent g Z x y W IZ Hx Et) as (l & n & c & vx & vy & _ & _ & B & Hd & Eg & Kc & Dc & E1 & E2 & E3). specialize (H n c vx vy B Hd Eg Kc Dc). rewrite E1, Qcmult_0_l in H. symmetry in H. destruct (Qcmult_integral _ _ H); contradiction.
Qed.
Print Assumptions C79_exact.

(* in terms of query: observing x can change the answer about y exactly when is_dconnected says yes *)
Theorem C79_query : forall o g Z x y, valid_order o -> wf_dag g -> NoDup (x :: y :: Z) -> incl (x :: y :: Z) (nodes g) ->
  (is_dconnected g x y Z = Ok true <->
   exists n (c : list (node * outcome)) vx vy n1 f1 n2 f2 p1 p2, built n /\ distribution n /\ ngraph n = g /\ keys c = Z /\ do_prob n [] ((x, vx) :: c) <> 0 /\
     query o (Ok tt) n [y] c [] = (n1, Ok f1) /\ query o (Ok tt) n [y] ((x, vx) :: c) [] = (n2, Ok f2) /\
     In ([vy], p1) (fentries f1) /\ In ([vy], p2) (fentries f2) /\ p1 <> p2).
Proof.
  intros o g Z x y O W Nd I. inversion Nd as [|? ? Nx Nd']; subst. inversion Nd' as [|? ? Ny NZ]; subst. assert (Hx : In x (nodes g)) by (apply I; left; auto). assert (Hy : In y (nodes g)) by (apply I; right; left; auto). assert (IZ : incl Z (nodes g)) by (intros z Hz; apply I; right; right; auto).
  assert (One : forall vs, NoDup vs -> (forall v : node, In v vs <-> In v [y]) -> vs = [y]). { clear. intros [|v [|w vs]] N K; [destruct (proj2 (K y)); left; auto|destruct (proj1 (K v)) as [->|[]]; [left|]; auto|]. exfalso. destruct (proj1 (K v)) as [Ev|[]]; [left; auto|]. destruct (proj1 (K w)) as [Ew|[]]; [right; left; auto|]. inversion N; subst. apply H1. left. congruence. }
  split.
  - intro Dc. destruct (C79_dependent g Z x y W IZ Hx Dc) as (l & n & c & vx & vy & _ & _ & B & Hd & Eg & Kc & Dom & E1 & E2 & E3).
    assert (Dc1 : in_domains n c) by (intros v q K; apply Dom; right; right; auto). assert (Dc2 : in_domains n ((x, vx) :: c)) by (intros v q [K|K]; apply Dom; [left|right; right]; auto).
    assert (Kc2 : keys ((x, vx) :: c) = x :: Z) by (cbn; rewrite <- Kc; auto). assert (Jn : forall q q', In q [y] -> In q' [y] -> joined (ngraph n) [] q q') by (intros q q' [<-|[]] [<-|[]]; constructor). assert (Iy : incl [y] (nodes (ngraph n))) by (rewrite Eg; intros q [<-|[]]; auto).
    assert (T0 : tables_sorted n []) by (intros v u t []). assert (D0 : in_domains n []) by (intros v q []). assert (I0 : incl (keys (@nil (node * outcome))) (nodes (ngraph n))) by (intros q []).
    destruct (C39_accepted_partial o (Ok tt) n [y] c [] B Hd (NoDup_nil _) I0 D0 T0 Dc1 ltac:(discriminate) Iy Jn) as (n1 & f1 & Q1); [intros q [<-|[]]; rewrite Kc; auto|auto|].
    destruct (C39_accepted_partial o (Ok tt) n [y] ((x, vx) :: c) [] B Hd (NoDup_nil _) I0 D0 T0 Dc2 ltac:(discriminate) Iy Jn) as (n2 & f2 & Q2); [intros q [<-|[]]; rewrite Kc2; intros [K|K]; [apply Nx; left; auto|contradiction]|auto|].
    assert (A1 : NoDup (keys c) /\ incl (keys c) (nodes (ngraph n))) by (rewrite Kc, Eg; auto). assert (A2 : NoDup (keys ((x, vx) :: c)) /\ incl (keys ((x, vx) :: c)) (nodes (ngraph n))). { rewrite Kc2, Eg. split; [constructor; auto; intro K; apply Nx; right; auto|intros v [<-|K]; auto]. }
    destruct (C55_query_conditional o (Ok tt) n [y] c [] n1 f1 O B Hd (proj1 A1) (proj2 A1) (NoDup_nil _) D0 T0 Q1) as (N1 & V1 & _ & F1 & X1 & _).
    destruct (C55_query_conditional o (Ok tt) n [y] ((x, vx) :: c) [] n2 f2 O B Hd (proj1 A2) (proj2 A2) (NoDup_nil _) D0 T0 Q2) as (N2 & V2 & _ & F2 & X2 & _).
    rewrite (One _ N1 V1) in *. rewrite (One _ N2 V2) in *. assert (Hvy : In vy (dom_of (doms n) y)) by (destruct (Dom y vy (or_intror (or_introl eq_refl))) as (r & Hr & K); unfold dom_of; rewrite Hr; auto).
    assert (Fv : Forall2 (fun v q => In q (dom_of (doms n) v)) [y] [vy]) by (repeat constructor; auto).
    destruct (proj2 (F1 [vy]) Fv) as [p1 P1]. destruct (proj2 (F2 [vy]) Fv) as [p2 P2].
    assert (Z1 : do_prob n [] c <> 0). { intro K. apply E2. assert (L := do_prob_more n [] c (x, vx) Hd (NoDup_nil _) I0 D0). apply Qcle_antisym; [apply Qcle_trans with (do_prob n [] c); [exact L|rewrite K; apply Qcle_refl]|]. apply (POptDec.do_prob_nonneg n [] _ Hd (NoDup_nil _) I0 D0). }
    exists n, c, vx, vy, n1, f1, n2, f2, p1, p2. repeat (split; [assumption|]). intro E. apply (proj2 (X1 Z1)) in P1. apply (proj2 (X2 E2)) in P2. cbn [combine app] in P1, P2.
    assert (E1' : do_prob n [] ((y, vy) :: (x, vx) :: c) = 0) by (rewrite <- E1; apply do_prob_perm, perm_swap). assert (P2' : p2 = 0) by (etransitivity; [exact P2|]; apply (f_equal (fun q => q / do_prob n [] ((x, vx) :: c))) in E1'; etransitivity; [exact E1'|]; unfold Qcdiv; ring).
    assert (P1' : p1 = do_prob n [] ((y, vy) :: c) / do_prob n [] c) by exact P1. apply E3. transitivity (p1 * do_prob n [] c); [rewrite P1'; field; auto|]. rewrite E, P2'. ring.
  - intros (n & c & vx & vy & n1 & f1 & n2 & f2 & p1 & p2 & B & Hd & Eg & Kc & Nz & Q1 & Q2 & P1 & P2 & Np). destruct (PPaths.C05_is_dconnected g x y Z W IZ Hx) as (t & Et & _). destruct t; auto. exfalso. subst g.
    assert (T0 : tables_sorted n []) by (intros v u t []). assert (D0 : in_domains n []) by (intros v q []).
    assert (A2 : NoDup (x :: keys c) /\ incl (x :: keys c) (nodes (ngraph n))). { rewrite Kc. split; [constructor; auto; intro K; apply Nx; right; auto|intros v [<-|K]; auto]. }
    assert (A1 : NoDup (keys c) /\ incl (keys c) (nodes (ngraph n))) by (rewrite Kc; auto).
    destruct (C55_query_conditional o (Ok tt) n [y] c [] n1 f1 O B Hd (proj1 A1) (proj2 A1) (NoDup_nil _) D0 T0 Q1) as (N1 & V1 & _ & F1 & X1 & _).
    destruct (C55_query_conditional o (Ok tt) n [y] ((x, vx) :: c) [] n2 f2 O B Hd (proj1 A2) (proj2 A2) (NoDup_nil _) D0 T0 Q2) as (N2 & V2 & U2 & F2 & X2 & _).
    destruct (C58_screened_off o o (Ok tt) n [y] c [] x vx n1 f1 n2 f2 O O B Hd (proj1 A2) (proj2 A2) (NoDup_nil _) (fun K => K) D0 T0) with (a := fun _ : node => vy) (p1 := p1) as (p & Hp & Ep); auto.
    + intros q [<-|[]]. cbn [keys map]. rewrite app_nil_r, Kc. auto.
    + rewrite (One _ N1 V1). auto.
    + rewrite (One _ N2 V2) in *. cbn [map] in Hp. subst p. apply Np. clear - U2 P2 Hp. induction (fentries f2) as [|[k q] es IH]; [destruct Hp|]. inversion U2 as [|? ? M1 M2]; subst. destruct Hp as [Hp|Hp], P2 as [P2|P2]; auto.
      * congruence.
      * exfalso. apply M1. injection Hp as -> _. apply in_map_iff. exists ([vy], p2). auto.
      * exfalso. apply M1. injection P2 as -> _. apply in_map_iff. exists ([vy], p1). auto.
Qed.
Print Assumptions C79_query.
(* X -> A -> Y and X -> C <- Y, C -> D: independent given A, but some network has them dependent given A and D *)
Example C79_example : wf_dag PPaths.ex_g /\ is_dconnected PPaths.ex_g "X" "Y" ["A"] = Ok false /\ is_dconnected PPaths.ex_g "X" "Y" ["A"; "D"] = Ok true /\
  (forall n vx vy a, built n -> distribution n -> ngraph n = PPaths.ex_g -> in_domains n [("X", vx); ("Y", vy); ("A", a)] ->
     do_prob n [] [("X", vx); ("Y", vy); ("A", a)] * do_prob n [] [("A", a)] = do_prob n [] [("X", vx); ("A", a)] * do_prob n [] [("Y", vy); ("A", a)]) /\
  exists n vx vy a d, built n /\ distribution n /\ ngraph n = PPaths.ex_g /\ do_prob n [] [("X", vx); ("Y", vy); ("A", a); ("D", d)] = 0 /\ do_prob n [] [("X", vx); ("A", a); ("D", d)] <> 0 /\ do_prob n [] [("Y", vy); ("A", a); ("D", d)] <> 0.
Proof.
  assert (Hm : forall v, In v ["X"; "Y"; "A"; "D"] -> In v (nodes PPaths.ex_g)) by (intros v Hv; apply mem_In; repeat (destruct Hv as [<-|Hv]; [vm_compute; reflexivity|]); destruct Hv).
  assert (W := PPaths.ex_g_wf). assert (Ia : incl ["A"] (nodes PPaths.ex_g)) by (intros v [<-|[]]; apply Hm; right; right; left; auto). assert (Iad : incl ["A"; "D"] (nodes PPaths.ex_g)) by (intros v Hv; apply Hm; right; right; exact Hv). assert (Hx : In "X" (nodes PPaths.ex_g)) by (apply Hm; left; auto). assert (Hy : In "Y" (nodes PPaths.ex_g)) by (apply Hm; right; left; auto).
  split; [exact W|]. split; [exact (proj1 PPaths.C05_example)|]. split; [exact (proj2 PPaths.C05_example)|]. split.
  - intros n vx vy a B Hd Eg Dc. exact (proj1 (C79_exact PPaths.ex_g ["A"] "X" "Y" W ltac:(repeat constructor; intros []) Ia Hx Hy) (proj1 PPaths.C05_example) n [("A", a)] vx vy B Hd Eg eq_refl Dc).
  - destruct (C79_dependent PPaths.ex_g ["A"; "D"] "X" "Y" W Iad Hx (proj2 PPaths.C05_example)) as (l & n & c & vx & vy & _ & _ & B & Hd & Eg & Kc & _ & E). clear - B Hd Eg Kc E. revert B Hd Eg Kc E. generalize PPaths.ex_g. intros g B Hd Eg Kc E. destruct c as [|[v a] [|[w d] [|q r]]]; [discriminate Kc|discriminate Kc| |discriminate Kc]. injection Kc as -> ->. exists n, vx, vy, a, d. split; [exact B|]. split; [exact Hd|]. split; [exact Eg|exact E].
Qed.
