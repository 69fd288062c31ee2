(* Property C84: with no active backdoor trail, observing a variable tells as much as setting it. *)
From Coq Require Import String List Bool Arith QArith Qcanon Lia Permutation.
Import ListNotations.
From Verif Require Import MBase MGraph MPaths MCpd MNet MProb MQuery Spec SpecC SpecN SpecQ SpecPol SpecGen LBase LGraph LQc LSum LBayes LQuery LDo LTotal LBest LIndep LCond LDep LDoor LEffects LCheckN LNet PQuery PGen PIndep PDep.
From Verif Require PPaths POptDec LSearch.
Local Open Scope string_scope.
Local Open Scope list_scope.
Local Open Scope Qc_scope.

(* ---- C84 ---- *)
(* what has a chance of happening is in the domains *)
Lemma possible_in : forall n (c : list (node * outcome)), distribution n -> incl (keys c) (nodes (ngraph n)) -> do_prob n [] c <> 0 -> in_domains n c.
Proof.
  intros n c Hd I H w q Hw. assert (Hn : In w (nodes (ngraph n))) by (apply I; apply (in_map fst) in Hw; auto). destruct (LSearch.dist_lookup n w Hd Hn) as [L _]. exists (dom_of (doms n) w). split; [exact L|].
  destruct (in_dec Qc_eq_dec q (dom_of (doms n) w)) as [K|K]; auto. exfalso. apply H. rewrite prob_total. transitivity (total (dom_of (doms n)) (nodes (ngraph n)) (fun _ => 0) (fun _ => 0)); [|apply total_zero]. apply total_ext_in. intros b Wb _.
  destruct (agrees c b) eqn:E; [|apply Qcmult_0_l]. rewrite agrees_iff in E. exfalso. apply K. rewrite <- (E w q Hw). auto.
Qed.
Lemma no_backdoor : forall n x y (c : list (node * outcome)) vx vy, distribution n -> NoDup (x :: y :: keys c) -> incl (x :: y :: keys c) (nodes (ngraph n)) -> in_domains n ((x, vx) :: (y, vy) :: c) ->
  (forall p, ~ backdoor_path (ngraph n) (keys c) x y p) ->
  do_prob n [] ((x, vx) :: (y, vy) :: c) * do_prob n [(x, vx)] c = do_prob n [] ((x, vx) :: c) * do_prob n [(x, vx)] ((y, vy) :: c).
Proof.
  intros n x y c vx vy Hd Nd I Dm Nb. inversion Nd as [|? ? Nx Nd']; subst. inversion Nd' as [|? ? Ny Nc]; subst. assert (W : wf_dag (ngraph n)) by apply Hd.
  assert (Hx : In x (nodes (ngraph n))) by (apply I; left; auto). assert (Hy : In y (nodes (ngraph n))) by (apply I; right; left; auto). assert (Ic : incl (keys c) (nodes (ngraph n))) by (intros z Hz; apply I; right; right; auto).
  assert (InD : forall u q, In (u, q) ((x, vx) :: (y, vy) :: c) -> In q (dom_of (doms n) u)) by (intros u q K; destruct (Dm u q K) as (r & Hr & Kr); unfold dom_of; unfold has_domain in Hr; rewrite Hr; auto).
  assert (Hv : In vx (dom_of (doms n) x)) by (apply InD; left; auto). assert (Nxy : x <> y) by (intro K; apply Nx; left; auto).
  assert (Nxc : ~ In x (keys c)) by (intro K; apply Nx; right; auto).
  assert (S1 := plug_seen n x vx Hd ((y, vy) :: c)). assert (S2 := plug_seen n x vx Hd c). assert (S3 := plug_done n x vx Hd Hx Hv c Nxc). assert (S4 := plug_done n x vx Hd Hx Hv ((y, vy) :: c) Nx).
  transitivity (P (mute (ngraph n) x) (ndom n) (plug n x vx) ((x, vx) :: [(y, vy)] ++ c) * P (mute (ngraph n) x) (ndom n) (plug n x vx) c); [exact (f_equal2 Qcmult (eq_sym S1) (eq_sym S3))|].
  transitivity (P (mute (ngraph n) x) (ndom n) (plug n x vx) ((x, vx) :: c) * P (mute (ngraph n) x) (ndom n) (plug n x vx) ([(y, vy)] ++ c)); [|exact (f_equal2 Qcmult S2 S4)].
  apply (d_sep_sound (mute (ngraph n) x) (ndom n) (plug n x vx) x [y] (keys c) vx [(y, vy)] c); auto.
  - apply mute_dag; auto.
  - intro u. apply ndom_nodup; auto.
  - apply plug_cond; auto.
  - intros q [<-|[]]. exact Hy.
  - intros q [<-|[]]. exact Ny.
  - intros q [<-|[]] K. destruct (mute_backdoor (ngraph n) (keys c) x y W Nxy K) as (p & Kp). exact (Nb p Kp).
  - cbn. tauto.
  - tauto.
  - intros u q K. rewrite ndom_in; [apply InD; right; exact K|]. apply I. right. destruct K as [K|K]; [injection K as <- <-; left; auto|right; apply (in_map fst) in K; auto].
  - rewrite ndom_in; auto.
Qed.
(* the trail test answers no: P(y | x, c) = P(y | do(x), c) in every network with the graph *)
Theorem C84_backdoor : forall o n x y (c : list (node * outcome)) vx vy, valid_order o -> distribution n -> NoDup (x :: y :: keys c) -> incl (x :: y :: keys c) (nodes (ngraph n)) -> in_domains n ((x, vx) :: (y, vy) :: c) ->
  is_active_backdoor_trail o (ngraph n) x y (keys c) = Ok false ->
  do_prob n [] ((x, vx) :: (y, vy) :: c) * do_prob n [(x, vx)] c = do_prob n [] ((x, vx) :: c) * do_prob n [(x, vx)] ((y, vy) :: c).
Proof.
  intros o n x y c vx vy O Hd Nd I Dm E. assert (W : wf_dag (ngraph n)) by apply Hd. apply no_backdoor; auto. intros p Kp.
  destruct (PPaths.C08_backdoor o (ngraph n) x y (keys c) O W) as (r & Er & Kr); [intros z Hz; apply I; right; right; auto|apply I; left; auto|apply I; right; left; auto|]. rewrite E in Er. injection Er as <-. assert (X := proj2 Kr (ex_intro _ p Kp)). discriminate.
Qed.
Print Assumptions C84_backdoor.

(* the test answers yes: some network entered with add_cpds tells them apart *)
Theorem C84_confounded : forall o g Z x y, valid_order o -> wf_dag g -> incl Z (nodes g) -> In x (nodes g) -> In y (nodes g) -> x <> y -> ~ In x Z -> ~ In y Z ->
  is_active_backdoor_trail o g x y Z = Ok true ->
  exists l n (c : list (node * outcome)) vx vy, (forall v r, In (v, r) l -> admissible v r) /\ add_cpds (bare g) l = (n, None) /\ built n /\ distribution n /\ ngraph n = g /\ keys c = Z /\ in_domains n ((x, vx) :: (y, vy) :: c) /\ (forall iv, tables_sorted n iv) /\
    do_prob n [] ((x, vx) :: (y, vy) :: c) = 0 /\ do_prob n [] ((x, vx) :: c) <> 0 /\ do_prob n [(x, vx)] ((y, vy) :: c) <> 0.
Proof.
  intros o g Z x y O W IZ Hx Hy Nxy Zx Zy Bt. destruct (PPaths.C08_backdoor o g x y Z O W IZ Hx Hy) as (t & Et & Kt). rewrite Bt in Et. injection Et as <-. destruct (proj1 Kt eq_refl) as (p0 & Bp). clear Kt.
  set (h := mute g x). assert (Wh : wf_dag h) by (apply mute_dag; auto). destruct (backdoor_mute g Z x W IZ Hx Zx y p0 Zy Bp) as (_ & _ & p & Sp & Ac). fold h in Sp, Ac.
  destruct (dependent_network h Z x y p Wh IZ Hx Zx Zy Sp Ac) as (D & K & a & a' & Vl & Cg & Wa & Wa' & Na & Na' & Ez & Im). change (nodes h) with (nodes g) in *.
  assert (Vg : value_lists g D) by exact Vl.
  assert (Cg' : conditionals g D K). { destruct Cg as (L & N & S). split; [|split]; auto. - intros v b b' Hv Ev Ep. apply L; auto. intros q Hq. apply Ep. eapply mute_sub; eauto. - intros v b Hv Hb. apply S; auto. intros q Hq. apply Hb. eapply mute_sub; eauto. }
  destruct (C73_relationships g D K [] W Vg Cg') as (l & n & Ad & Ea & B & Hd & Eg & Pd & Ek & _ & Fn). set (c := map (fun z => (z, a z)) Z).
  assert (Kc : keys c = Z) by (unfold c, keys; rewrite map_map; cbn; apply map_id).
  assert (Dom : forall v q, In v (nodes g) -> In q (D v) -> In q (dom_of (doms n) v)) by (intros v q Hv Hq; apply (Permutation_in _ (Permutation_sym (Pd v Hv))); auto).
  assert (InD : forall v q, In v (nodes g) -> In q (D v) -> exists r, has_domain n v r /\ In q r). { intros v q Hv Hq. rewrite <- Eg in Hv. destruct (LSearch.dist_lookup n v Hd Hv) as [L _]. exists (dom_of (doms n) v). split; [exact L|]. apply Dom; auto. rewrite <- Eg; auto. }
  assert (Tot : forall c', do_prob n [] c' = total (dom_of (doms n)) (nodes g) (fun b => chance c' b * weight K (nodes g) b) (fun _ => 0)).
  { intro c'. rewrite prob_total, Eg. apply total_ext_in. intros b Wb _. unfold chance. f_equal. unfold joint, weight. rewrite Eg. apply qprod_ext. intros v Hv. apply Ek; auto. unfold within. rewrite Eg. auto. }
  assert (Won : on (fun v => In v (nodes g)) (weight K (nodes g))). { intros b b' E. unfold weight. apply qprod_ext. intros v Hv. destruct Cg' as [L _]. apply L; auto. intros q Hq. apply E. apply (proj1 W) in Hq. tauto. }
  assert (Con : forall c', incl (keys c') (nodes g) -> on (fun v => In v (nodes g)) (chance c')) by (intros c' I; eapply on_mono; [|apply agrees_on]; auto).
  assert (Pos : forall c' b, incl (keys c') (nodes g) -> (forall v, In v (nodes g) -> In (b v) (D v)) -> (forall v q, In (v, q) c' -> b v = q) -> weight K (nodes g) b <> 0 -> do_prob n [] c' <> 0).
  { intros c' b Ic Wb Ag Nz E. rewrite Tot in E. set (b0 := fun v => if in_dec String.string_dec v (nodes g) then b v else 0). assert (B0 : forall v, In v (nodes g) -> b v = b0 v) by (intros v Hv; unfold b0; destruct (in_dec String.string_dec v (nodes g)); [auto|contradiction]).
    apply Nz. rewrite (Won b b0 B0). assert (X : chance c' b0 * weight K (nodes g) b0 = 0).
    - apply (total_zero_each (dom_of (doms n)) (nodes g) (fun b => chance c' b * weight K (nodes g) b) b0 (fun _ => 0)); auto.
      + intros b1 b2 Eb. rewrite (Won b1 b2), (Con c' Ic b1 b2); auto.
      + intros b1 _. apply Qc_mul_nonneg; [unfold chance; destruct (agrees c' b1); discriminate|]. apply qprod_nonneg. intros q Hq. apply in_map_iff in Hq. destruct Hq as (v & <- & Hv). destruct Cg' as (_ & N & _). apply N; auto.
      + apply W.
      + intros v Hv. rewrite <- B0 by auto. apply Dom; auto.
      + intros v Nv. unfold b0. destruct (in_dec String.string_dec v (nodes g)); [contradiction|auto].
    - rewrite <- (Con c' Ic b b0 B0), chance_in, Qcmult_1_l in X; auto. }
  (* setting x changes nothing but x *)
  assert (Same : forall c', ~ In x (keys c') -> do_prob n [(x, a x)] c' = do_prob n [] c').
  { intros c' Nc'. assert (Hxn : In x (nodes (ngraph n))) by (rewrite Eg; auto). assert (Hax : In (a x) (dom_of (doms n) x)) by (apply Dom; auto).
    rewrite <- (plug_done n x (a x) Hd Hxn Hax c' Nc'), prob_total. unfold P. cbn [mute nodes]. rewrite (total_dom_perm (dom_of (doms n)) (ndom n)) by (intros w Hw; rewrite ndom_in; auto).
    apply total_ext_in. intros b Wb _. f_equal. unfold weight, joint. apply qprod_ext. intros u Hu. unfold plug. destruct (String.eqb_spec u x) as [->|Nu]; auto.
    assert (Wn : within n b) by (intros w Hw; rewrite <- ndom_in by auto; auto).
    rewrite Eg in Hu. rewrite !Ek by (auto; intros w Hw; unfold upd; destruct (String.eqb_spec w x) as [->|]; auto). apply (proj1 Cg); auto.
    - unfold upd. destruct (String.eqb_spec u x); [contradiction|auto].
    - intros q Hq. apply edge_mute in Hq. unfold upd. destruct (String.eqb_spec q x); [tauto|auto]. }
  exists l, n, c, (a x), (a' y). split; [exact Ad|]. split; [exact Ea|]. split; [exact B|]. split; [exact Hd|]. split; [exact Eg|]. split; [exact Kc|].
  assert (Hc : forall v q, In (v, q) c -> In v Z /\ q = a v) by (intros v q Hv; apply in_map_iff in Hv; destruct Hv as (z & E & Hz); injection E as <- <-; auto).
  split; [|split; [|split; [|split]]].
  - intros v q [E|[E|Hv]]; [injection E as <- <-; apply InD; auto|injection E as <- <-; apply InD; auto|]. apply Hc in Hv. destruct Hv as [Hv ->]. apply InD; auto.
  - intros iv v u tb _ E L. rewrite Eg in E. assert (Hu : In u (nodes g)) by (apply (proj1 W) in E; tauto). destruct (Fn u Hu (fun K => K)) as [f Ef]. rewrite Ef in L. discriminate.
  - rewrite Tot. transitivity (total (dom_of (doms n)) (nodes g) (fun _ => 0) (fun _ => 0)); [|apply total_zero]. apply total_ext_in. intros b Wb _. unfold chance. destruct (agrees ((x, a x) :: (y, a' y) :: c) b) eqn:E; [|apply Qcmult_0_l]. rewrite Qcmult_1_l. rewrite agrees_iff in E. apply Im.
    + intros v Hv. apply (Permutation_in _ (Pd v Hv)). auto.
    + apply E. left; auto.
    + apply E. right; left; auto.
    + intros z Hz. apply E. right; right. unfold c. apply in_map_iff. exists z. auto.
  - apply (Pos _ a); auto; [intros v [<-|Hv]; [auto|apply IZ; rewrite <- Kc; auto]|]. intros v q [E|Hv]; [injection E as <- <-; auto|apply Hc in Hv; symmetry; tauto].
  - rewrite Same by (cbn [keys map fst]; intros [E|E]; [congruence|apply Zx; rewrite <- Kc; exact E]).
    apply (Pos _ a'); auto; [intros v [<-|Hv]; [auto|apply IZ; rewrite <- Kc; auto]|]. intros v q [E|Hv]; [injection E as <- <-; auto|]. apply Hc in Hv. destruct Hv as [Hv ->]. auto.
Qed.
Print Assumptions C84_confounded.

(* the test answers no exactly when seeing x and setting x always say the same about y *)
Theorem C84_exact : forall o g Z x y, valid_order o -> wf_dag g -> NoDup (x :: y :: Z) -> incl (x :: y :: Z) (nodes g) ->
  (is_active_backdoor_trail o g x y Z = Ok false <->
   forall n (c : list (node * outcome)) vx vy, built n -> distribution n -> ngraph n = g -> keys c = Z -> in_domains n ((x, vx) :: (y, vy) :: c) ->
     do_prob n [] ((x, vx) :: (y, vy) :: c) * do_prob n [(x, vx)] c = do_prob n [] ((x, vx) :: c) * do_prob n [(x, vx)] ((y, vy) :: c)).
Proof.
  intros o g Z x y O W Nd I. assert (Nd0 := Nd). inversion Nd as [|? ? Nx Nd']; subst. inversion Nd' as [|? ? Ny NZ]; subst. split.
  - intros E n c vx vy B Hd Eg Kc Dm. subst. apply (C84_backdoor o); auto.
  - intro H. assert (Hx : In x (nodes g)) by (apply I; left; auto). assert (Hy : In y (nodes g)) by (apply I; right; left; auto). assert (IZ : incl Z (nodes g)) by (intros z Hz; apply I; right; right; auto).
    destruct (PPaths.C08_backdoor o g x y Z O W IZ Hx Hy) as ([] & Et & _); auto. exfalso. assert (Nxy : x <> y) by (intro K; apply Nx; left; auto).
    destruct (C84_confounded o g Z x y O W IZ Hx Hy Nxy (fun K => Nx (or_intror K)) Ny Et) as (l & n & c & vx & vy & _ & _ & B & Hd & Eg & Kc & Dc & _ & E1 & E2 & E3). specialize (H n c vx vy B Hd Eg Kc Dc). rewrite E1, Qcmult_0_l in H. symmetry in H. destruct (Qcmult_integral _ _ H); contradiction.
Qed.
Print Assumptions C84_exact.

(* in terms of query: conditioning on x and intervening on x can answer differently about y exactly when the test says yes *)
Theorem C84_query : forall o g Z x y, valid_order o -> wf_dag g -> NoDup (x :: y :: Z) -> incl (x :: y :: Z) (nodes g) ->
  (is_active_backdoor_trail o g x y Z = Ok true <->
   exists n (c : list (node * outcome)) vx vy n1 f1 n2 f2 p1 p2, built n /\ distribution n /\ ngraph n = g /\ keys c = Z /\ in_domains n [(x, vx)] /\ tables_sorted n [(x, vx)] /\ do_prob n [] ((x, vx) :: c) <> 0 /\
     query o (Ok tt) n [y] ((x, vx) :: c) [] = (n1, Ok f1) /\ query o (Ok tt) n [y] c [(x, vx)] = (n2, Ok f2) /\
     In ([vy], p1) (fentries f1) /\ In ([vy], p2) (fentries f2) /\ p1 <> p2).
Proof.
  intros o g Z x y O W Nd I. assert (Nd0 := Nd). inversion Nd as [|? ? Nx Nd']; subst. inversion Nd' as [|? ? Ny NZ]; subst. assert (Hx : In x (nodes g)) by (apply I; left; auto). assert (Hy : In y (nodes g)) by (apply I; right; left; auto). assert (IZ : incl Z (nodes g)) by (intros z Hz; apply I; right; right; auto).
  assert (Zx : ~ In x Z) by (intro K; apply Nx; right; auto). assert (Nxy : x <> y) by (intro K; apply Nx; left; auto).
  assert (One : forall vs, NoDup vs -> (forall v : node, In v vs <-> In v [y]) -> vs = [y]). { clear. intros [|v [|w vs]] N K; [destruct (proj2 (K y)); left; auto|destruct (proj1 (K v)) as [->|[]]; [left|]; auto|]. exfalso. destruct (proj1 (K v)) as [Ev|[]]; [left; auto|]. destruct (proj1 (K w)) as [Ew|[]]; [right; left; auto|]. inversion N; subst. apply H1. left. congruence. }
  assert (Answers : forall n (c : list (node * outcome)) vx n1 f1 n2 f2, built n -> distribution n -> ngraph n = g -> keys c = Z -> in_domains n [(x, vx)] -> tables_sorted n [(x, vx)] -> do_prob n [] ((x, vx) :: c) <> 0 ->
    query o (Ok tt) n [y] ((x, vx) :: c) [] = (n1, Ok f1) -> query o (Ok tt) n [y] c [(x, vx)] = (n2, Ok f2) ->
    do_prob n [(x, vx)] c <> 0 /\ (forall vy, In vy (dom_of (doms n) y) -> (exists p1, In ([vy], p1) (fentries f1)) /\ exists p2, In ([vy], p2) (fentries f2)) /\
    (forall vy p, In ([vy], p) (fentries f1) -> In vy (dom_of (doms n) y) /\ p = do_prob n [] ((x, vx) :: (y, vy) :: c) / do_prob n [] ((x, vx) :: c)) /\
    (forall vy p, In ([vy], p) (fentries f2) -> p = do_prob n [(x, vx)] ((y, vy) :: c) / do_prob n [(x, vx)] c)).
  { intros n c vx n1 f1 n2 f2 B Hd Eg Kc Dx Ts Nz Q1 Q2. assert (T0 : tables_sorted n []) by (intros v u t []). assert (D0 : in_domains n []) by (intros v q []).
    assert (Kx : keys ((x, vx) :: c) = x :: Z) by (cbn; rewrite <- Kc; auto).
    assert (A1 : NoDup (keys ((x, vx) :: c)) /\ incl (keys ((x, vx) :: c)) (nodes (ngraph n))) by (rewrite Kx, Eg; split; [constructor; auto|intros v [<-|K]; auto]).
    assert (A2 : NoDup (keys c) /\ incl (keys c) (nodes (ngraph n))) by (rewrite Kc, Eg; auto).
    destruct (C55_query_conditional o (Ok tt) n [y] ((x, vx) :: c) [] n1 f1 O B Hd (proj1 A1) (proj2 A1) (NoDup_nil _) D0 T0 Q1) as (N1 & V1 & _ & F1 & X1 & _).
    assert (Nx1 : NoDup (keys [(x, vx)])) by (constructor; [intros []|constructor]).
    destruct (C55_query_conditional o (Ok tt) n [y] c [(x, vx)] n2 f2 O B Hd (proj1 A2) (proj2 A2) Nx1 Dx Ts Q2) as (N2 & V2 & _ & F2 & X2 & _).
    rewrite (One _ N1 V1) in *. rewrite (One _ N2 V2) in *.
    assert (Hv : In vx (dom_of (doms n) x)) by (destruct (Dx x vx (or_introl eq_refl)) as (r & Hr & K); unfold dom_of; rewrite Hr; auto).
    assert (Nd2 : do_prob n [(x, vx)] c <> 0) by (apply seen_done; auto; [rewrite Eg; auto|rewrite Kc; auto]).
    split; [exact Nd2|]. split; [|split].
    - intros vy Hvy. assert (Fv : Forall2 (fun v q => In q (dom_of (doms n) v)) [y] [vy]) by (repeat constructor; auto). split; [apply (proj2 (F1 [vy]) Fv)|apply (proj2 (F2 [vy]) Fv)].
    - intros vy p K. split.
      + assert (Fv := proj1 (F1 [vy]) (ex_intro _ p K)). inversion Fv; subst. auto.
      + etransitivity; [exact (proj2 (X1 Nz) [vy] p K)|]. cbn [combine app]. f_equal. apply do_prob_perm, perm_swap.
    - intros vy p K. exact (proj2 (X2 Nd2) [vy] p K). }
  split.
  - intro Bt. destruct (C84_confounded o g Z x y O W IZ Hx Hy Nxy Zx Ny Bt) as (l & n & c & vx & vy & _ & _ & B & Hd & Eg & Kc & Dom & Ts & E1 & E2 & E3).
    assert (Dc1 : in_domains n c) by (intros v q K; apply Dom; right; right; auto). assert (Dc2 : in_domains n ((x, vx) :: c)) by (intros v q [K|K]; apply Dom; [left|right; right]; auto). assert (Dx : in_domains n [(x, vx)]) by (intros v q [K|[]]; apply Dom; left; auto).
    assert (Jn : forall iv q q', In q [y] -> In q' [y] -> joined (ngraph n) iv q q') by (intros iv q q' [<-|[]] [<-|[]]; constructor). assert (Iy : incl [y] (nodes (ngraph n))) by (rewrite Eg; intros q [<-|[]]; auto).
    assert (D0 : in_domains n []) by (intros v q []). assert (I0 : incl (keys (@nil (node * outcome))) (nodes (ngraph n))) by (intros q []). assert (I1 : incl (keys [(x, vx)]) (nodes (ngraph n))) by (rewrite Eg; intros q [<-|[]]; auto). assert (Nx1 : NoDup (keys [(x, vx)])) by (constructor; [intros []|constructor]).
    destruct (C39_accepted_partial o (Ok tt) n [y] ((x, vx) :: c) [] B Hd (NoDup_nil _) I0 D0 (Ts []) Dc2 ltac:(discriminate) Iy (Jn _)) as (n1 & f1 & Q1); [intros q [<-|[]]; cbn; intros [K|K]; [congruence|apply Ny; rewrite <- Kc; exact K]|auto|].
    destruct (C39_accepted_partial o (Ok tt) n [y] c [(x, vx)] B Hd Nx1 I1 Dx (Ts _) Dc1 ltac:(discriminate) Iy (Jn _)) as (n2 & f2 & Q2); [intros q [<-|[]]; rewrite Kc; auto|auto|].
    destruct (Answers n c vx n1 f1 n2 f2 B Hd Eg Kc Dx (Ts _) E2 Q1 Q2) as (Nd2 & Ex & X1 & X2).
    assert (Hvy : In vy (dom_of (doms n) y)) by (destruct (Dom y vy (or_intror (or_introl eq_refl))) as (r & Hr & K); unfold dom_of; rewrite Hr; auto). destruct (Ex vy Hvy) as [[p1 P1] [p2 P2]].
    exists n, c, vx, vy, n1, f1, n2, f2, p1, p2. repeat (split; [solve [auto]|]). intro E. apply X1 in P1. destruct P1 as [_ P1]. apply X2 in P2. apply E3. transitivity (p2 * do_prob n [(x, vx)] c); [rewrite P2; field; auto|]. rewrite <- E, P1, E1. unfold Qcdiv. ring.
  - intros (n & c & vx & vy & n1 & f1 & n2 & f2 & p1 & p2 & B & Hd & Eg & Kc & Dx & Ts & Nz & Q1 & Q2 & P1 & P2 & Np). destruct (PPaths.C08_backdoor o g x y Z O W IZ Hx Hy) as ([] & Et & _); auto. exfalso. apply Np.
    destruct (Answers n c vx n1 f1 n2 f2 B Hd Eg Kc Dx Ts Nz Q1 Q2) as (Nd2 & _ & X1 & X2). destruct (X1 vy p1 P1) as [Hvy E1]. assert (E2 := X2 vy p2 P2).
    assert (Eq : do_prob n [] ((x, vx) :: (y, vy) :: c) * do_prob n [(x, vx)] c = do_prob n [] ((x, vx) :: c) * do_prob n [(x, vx)] ((y, vy) :: c)).
    { subst g Z. apply (C84_backdoor o); auto. intros v q K. assert (Pin := possible_in n ((x, vx) :: c) Hd (fun w Hw => I w (match Hw with or_introl e => or_introl e | or_intror k => or_intror (or_intror k) end)) Nz).
      destruct K as [K|[K|K]]; [apply Pin; left; auto| |apply Pin; right; auto]. injection K as <- <-. destruct (LSearch.dist_lookup n y Hd Hy) as [L _]. exists (dom_of (doms n) y). split; [exact L|auto]. }
    rewrite E1, E2. apply (f_equal (fun q => q / (do_prob n [] ((x, vx) :: c) * do_prob n [(x, vx)] c))) in Eq. transitivity (do_prob n [] ((x, vx) :: (y, vy) :: c) * do_prob n [(x, vx)] c / (do_prob n [] ((x, vx) :: c) * do_prob n [(x, vx)] c)); [field; auto|]. rewrite Eq. field. auto.
Qed.
Print Assumptions C84_query.

(* every value of z, and every combination of values of Z *)
Lemma by_value : forall n iv (c : list (node * outcome)) z, distribution n -> In z (nodes (ngraph n)) -> qsum (map (fun q => do_prob n iv ((z, q) :: c)) (dom_of (doms n) z)) = do_prob n iv c.
Proof.
  intros n iv c z Hd Hz. unfold do_prob. rewrite <- total_qsum. apply total_ext_in. intros b Wb _.
  etransitivity; [apply (qsum_single _ Qc_eq_dec (fun q : outcome => if agrees ((z, q) :: c) b then do_joint n iv b else 0) (dom_of (doms n) z) (b z))|].
  - apply LQuery.dom_nodup; auto.
  - apply Wb. exact Hz.
  - intros q _ Nq. match goal with |- (if ?t then _ else _) = _ => destruct t eqn:E end; [|reflexivity]. exfalso. rewrite agrees_iff in E. apply Nq. symmetry. exact (E z q (or_introl eq_refl)).
  - cbn beta. replace (agrees ((z, b z) :: c) b) with (agrees c b); auto. apply eq_true_iff_eq. rewrite !agrees_iff. split; [intros K w q [E|E]; [injection E as <- <-|]; auto|intros K w q E; apply K; right; auto].
Qed.
(* the values a gives to Z *)
Definition values (a : asg) (Z : list node) : list (node * outcome) := map (fun z => (z, a z)) Z.
Lemma by_values : forall n iv Z (c : list (node * outcome)) a, distribution n -> NoDup Z -> incl Z (nodes (ngraph n)) -> total (dom_of (doms n)) Z (fun b => do_prob n iv (values b Z ++ c)) a = do_prob n iv c.
Proof.
  intros n iv Z. induction Z as [|z Z IH]; intros c a Hd Nd I; [reflexivity|]. inversion Nd as [|? ? Nz Nd']; subst. assert (I' : incl Z (nodes (ngraph n))) by (intros w Hw; apply I; right; auto). cbn [total].
  rewrite <- (by_value n iv c z Hd) by (apply I; left; auto). apply qsum_ext. intros q _. rewrite <- (IH ((z, q) :: c) (upd a z q) Hd Nd' I'). apply total_ext_in. intros b _ Ob.
  assert (E : b z = q) by (rewrite (Ob z Nz); unfold upd; rewrite String.eqb_refl; auto). cbn [values map app]. rewrite E. fold (values b Z). apply do_prob_perm. apply Permutation_middle.
Qed.
(* backdoor adjustment: the effect of setting x is read off the observed distribution by averaging over Z *)
Theorem C84_adjustment : forall o n Z x y vx vy, valid_order o -> distribution n -> NoDup (x :: y :: Z) -> incl (x :: y :: Z) (nodes (ngraph n)) -> in_domains n [(x, vx); (y, vy)] ->
  (forall z, In z Z -> ~ reach (ngraph n) x z) -> is_active_backdoor_trail o (ngraph n) x y Z = Ok false ->
  (forall a, within n a -> do_prob n [] (values a Z) <> 0 -> do_prob n [] ((x, vx) :: values a Z) <> 0) ->
  do_prob n [(x, vx)] [(y, vy)] =
  total (dom_of (doms n)) Z (fun a => do_prob n [] ((x, vx) :: (y, vy) :: values a Z) / do_prob n [] ((x, vx) :: values a Z) * do_prob n [] (values a Z)) (fun _ => 0).
Proof.
  intros o n Z x y vx vy O Hd Nd I Dm Up Bt Ps. assert (Nd0 := Nd). inversion Nd as [|? ? Nx Nd']; subst. inversion Nd' as [|? ? Ny NZ]; subst. assert (IZ : incl Z (nodes (ngraph n))) by (intros z Hz; apply I; right; right; auto).
  assert (Hx : In x (nodes (ngraph n))) by (apply I; left; auto). assert (Dx : in_domains n [(x, vx)]) by (intros w q [K|[]]; apply Dm; left; auto).
  assert (KZ : forall a, keys (values a Z) = Z) by (intro a; unfold values, keys; rewrite map_map; cbn; apply map_id).
  rewrite <- (by_values n [(x, vx)] Z [(y, vy)] (fun _ => 0) Hd NZ IZ). apply total_ext_in. intros b Wb _. set (c := values b Z). assert (Kc : keys c = Z) by apply KZ.
  assert (InD : forall w, In w Z -> has_domain n w (dom_of (doms n) w)) by (intros w Hw; exact (proj1 (LSearch.dist_lookup n w Hd (IZ w Hw)))).
  assert (Dc : in_domains n c). { intros w q K. unfold c, values in K. apply in_map_iff in K. destruct K as (z & E & Hz). injection E as <- <-. exists (dom_of (doms n) z). split; auto. }
  assert (Nx1 : NoDup (keys [(x, vx)])) by (constructor; [intros []|constructor]). assert (Ix1 : incl (keys [(x, vx)]) (nodes (ngraph n))) by (intros w [<-|[]]; auto).
  rewrite (do_prob_perm n [(x, vx)] (c ++ [(y, vy)]) ((y, vy) :: c)) by (apply Permutation_sym, Permutation_cons_append).
  assert (Un : do_prob n [(x, vx)] c = do_prob n [] c). { apply do_prob_unaffected; auto; [rewrite Kc; auto|]. intros w z [<-|[]] Hz. rewrite Kc in Hz. auto. }
  assert (Eq : do_prob n [] ((x, vx) :: (y, vy) :: c) * do_prob n [(x, vx)] c = do_prob n [] ((x, vx) :: c) * do_prob n [(x, vx)] ((y, vy) :: c)).
  { apply (C84_backdoor o); auto; rewrite ?Kc; auto. intros w q [K|[K|K]]; [apply Dm; left; auto|apply Dm; right; left; auto|apply Dc; auto]. }
  rewrite Un in Eq. destruct (Qc_eq_dec (do_prob n [] c) 0) as [Z0|Nz].
  - rewrite Z0, Qcmult_0_r. assert (L := do_prob_more n [(x, vx)] c (y, vy) Hd Nx1 Ix1 Dx). rewrite Un, Z0 in L. apply Qcle_antisym; [exact L|]. apply (POptDec.do_prob_nonneg n [(x, vx)] _ Hd Nx1 Ix1 Dx).
  - assert (Nc : do_prob n [] ((x, vx) :: c) <> 0).
    { set (b0 := fun w => if in_dec String.string_dec w Z then b w else hd 0 (dom_of (doms n) w)). assert (E0 : c = values b0 Z) by (unfold c, values; apply map_ext_in; intros w Hw; unfold b0; destruct (in_dec String.string_dec w Z); [auto|contradiction]).
      rewrite E0 in *. apply Ps; auto. intros w Hw. unfold b0. destruct (in_dec String.string_dec w Z) as [K|K]; [auto|]. destruct (LSearch.dist_lookup n w Hd Hw) as [_ Ne]. destruct (dom_of (doms n) w); [contradiction|left; auto]. }
    transitivity (do_prob n [] ((x, vx) :: c) * do_prob n [(x, vx)] ((y, vy) :: c) / do_prob n [] ((x, vx) :: c)); [field; auto|]. rewrite <- Eq. field. auto.
Qed.
Print Assumptions C84_adjustment.

(* A causes X and Y, X causes Y: seeing X also tells about A, unless A is known *)
Definition ex_fork : net := made (mkG ["A"; "X"; "Y"] [("A", "X"); ("A", "Y"); ("X", "Y")])
  [("A", RDist coin); ("X", RFun (fn1 "A" noisy)); ("Y", tab_of "Y" [0; 1] ["A"; "X"] [2%nat; 2%nat] [[1; 0]; [q 1 2; q 1 2]; [q 1 3; q 2 3]; [0; 1]])].
Lemma ex_fork_built : built ex_fork /\ distribution ex_fork.
Proof.
  split; [apply made_built|apply dist_check_ok]; [vm_compute; reflexivity| |vm_compute; reflexivity|vm_compute; reflexivity].
  rels_ok; [split; [exact I|exact coin_dict]|apply fn1_admissible, noisy_dict|apply tab_admissible].
Qed.
Opaque ex_fork.
Lemma ex_fork_dom : forall v, In v ["A"; "X"; "Y"] -> lookup v (doms ex_fork) = Some [0; 1].
Proof.
  intros v H. assert (X : match lookup v (doms ex_fork) with Some d => olist_eqb d [0; 1] | None => false end = true) by (destruct H as [<-|[<-|[<-|[]]]]; vm_compute; reflexivity).
  destruct (lookup v (doms ex_fork)) as [d|]; [|discriminate]. apply olist_eqb_iff in X. subst d. reflexivity.
Qed.
Example C84_example : valid_order (fun _ l => l) /\ built ex_fork /\ distribution ex_fork /\ nodes (ngraph ex_fork) = ["A"; "X"; "Y"] /\ in_domains ex_fork [("X", 1); ("Y", 1); ("A", 1)] /\ tables_sorted ex_fork [("X", 1)] /\
  is_active_backdoor_trail (fun _ l => l) (ngraph ex_fork) "X" "Y" ["A"] = Ok false /\ ~ reach (ngraph ex_fork) "X" "A" /\
  (forall a, within ex_fork a -> do_prob ex_fork [] (values a ["A"]) <> 0 -> do_prob ex_fork [] (("X", 1) :: values a ["A"]) <> 0) /\
  is_active_backdoor_trail (fun _ l => l) (ngraph ex_fork) "X" "Y" [] = Ok true /\
  do_prob ex_fork [("X", 1)] [("Y", 1)] <> do_prob ex_fork [] [("X", 1); ("Y", 1)] / do_prob ex_fork [] [("X", 1)].
Proof.
  split; [exact PQuery.id_order|]. split; [exact (proj1 ex_fork_built)|]. split; [exact (proj2 ex_fork_built)|]. split; [vm_compute; reflexivity|]. split; [|split; [|split; [|split; [|split; [|split]]]]].
  - intros v x H. exists [0; 1]. destruct H as [H|[H|[H|[]]]]; injection H as <- <-; (split; [apply ex_fork_dom; cbn; tauto|right; left; auto]).
  - intros v u t [<-|[]] _ _. cbn [fst]. unfold dom_of. rewrite ex_fork_dom by (cbn; tauto). repeat constructor; vm_compute; reflexivity.
  - vm_compute. reflexivity.
  - intro R. assert (X : has_path (ngraph ex_fork) "X" "A" = false) by (vm_compute; reflexivity). 
    assert (Y : has_path (ngraph ex_fork) "X" "A" = true); [|congruence]. apply has_path_iff; auto; [exact (proj1 (proj1 (proj2 ex_fork_built)))|vm_compute; auto].
  - intros a Wa _. assert (Ha : In (a "A") [0; 1]). { assert (X := Wa "A"). unfold dom_of in X. rewrite ex_fork_dom in X by (cbn; tauto). apply X. apply mem_In. vm_compute. reflexivity. }
    cbn [values map]. destruct Ha as [<-|[<-|[]]]; intro K; [assert (X : oeqb (do_prob ex_fork [] [("X", 1); ("A", 0)]) 0 = false) by (vm_compute; reflexivity)|assert (X : oeqb (do_prob ex_fork [] [("X", 1); ("A", 1)]) 0 = false) by (vm_compute; reflexivity)]; exact (Bool.diff_true_false (eq_trans (eq_sym (proj2 (oeqb_iff _ _) K)) X)).
  - vm_compute. reflexivity.
  - intro K. assert (X : oeqb (do_prob ex_fork [("X", 1)] [("Y", 1)]) (do_prob ex_fork [] [("X", 1); ("Y", 1)] / do_prob ex_fork [] [("X", 1)]) = false) by (vm_compute; reflexivity). exact (Bool.diff_true_false (eq_trans (eq_sym (proj2 (oeqb_iff _ _) K)) X)).
Qed.
