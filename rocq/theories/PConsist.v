(* Property C91: the answers to different questions fit together. *)
From Coq Require Import String List Bool Arith QArith Qcanon Lia Permutation.
Import ListNotations.
From Verif Require Import MBase MGraph MCpd MNet MProb MQuery Spec SpecC SpecN SpecQ LBase LGraph LQc LCpd LNet LSum LBayes LQuery LDo LBuilt LTotal LCheckN LEffects PQuery.
From Verif Require Import PDoor.
From Verif Require POptDec LBest PEffects.
Local Open Scope string_scope.
Local Open Scope list_scope.
Local Open Scope Qc_scope.

(* the answer f gives p as the probability of the values a *)
Definition answer (f : factor) (a : asg) (p : Qc) : Prop := In (map a (fvars f), p) (fentries f).
(* a question a program can ask: the network, the context and the intervention are as C55 wants them, and the context is possible *)
Definition asked (n : net) (c iv : list (node * outcome)) : Prop :=
  built n /\ distribution n /\ NoDup (keys c) /\ incl (keys c) (nodes (ngraph n)) /\ NoDup (keys iv) /\ in_domains n iv /\ tables_sorted n iv /\ do_prob n iv c <> 0.

Lemma combine_map : forall (a : asg) vs, combine vs (map a vs) = values a vs.
Proof. intros a vs. induction vs as [|v vs IH]; [reflexivity|]. cbn [map combine values]. rewrite IH. reflexivity. Qed.
Lemma keys_values : forall a vs, keys (values a vs) = vs.
Proof. intros a vs. induction vs as [|v vs IH]; [reflexivity|]. cbn [keys values map fst] in *. f_equal. exact IH. Qed.
Lemma values_app : forall a vs ws, values a (vs ++ ws) = values a vs ++ values a ws.
Proof. intros. apply map_app. Qed.
Lemma answer_is : forall o roles n qs c iv n' f a p, valid_order o -> asked n c iv -> NoDup qs -> query o roles n qs c iv = (n', Ok f) -> answer f a p ->
  p = do_prob n iv (values a qs ++ c) / do_prob n iv c.
Proof.
  intros o roles n qs c iv n' f a p O (B & Hd & Nc & Ic & Ni & Di & Ts & Nz) Nq H A. destruct (C55_query_conditional o roles n qs c iv n' f O B Hd Nc Ic Ni Di Ts H) as (Nf & If & _ & _ & Po & _).
  destruct (Po Nz) as [_ E]. rewrite (E _ _ A). f_equal. apply do_prob_perm. apply Permutation_app_tail. rewrite combine_map. apply Permutation_map. apply NoDup_Permutation; auto.
Qed.
Lemma query_scope : forall o roles n qs c iv n' f, valid_order o -> asked n c iv -> query o roles n qs c iv = (n', Ok f) -> incl qs (nodes (ngraph n)) /\ incl (keys iv) (nodes (ngraph n)) /\ forall q, In q qs -> ~ In q (keys c).
Proof. intros o roles n qs c iv n' f O (B & Hd & Nc & Ic & Ni & Di & Ts & _) H. destruct (query_exact o roles n qs c iv n' f O B Hd Nc Ic Ni Di Ts H) as (_ & A & C & D & _). auto. Qed.

Lemma nodup_parts : forall (xs ys : list node), NoDup (xs ++ ys) -> NoDup xs /\ NoDup ys /\ forall x, In x xs -> ~ In x ys.
Proof.
  intros xs ys. induction xs as [|z xs IH]; intro N; [split; [constructor|split; [exact N|intros x []]]|]. cbn [app] in N. inversion N as [|? ? Nz N']; subst. destruct (IH N') as (A & B & C).
  split; [constructor; auto; intro H; apply Nz, in_or_app; auto|]. split; [exact B|]. intros x [<-|Hx]; [intro H; apply Nz, in_or_app; auto|auto].
Qed.
(* what is a possible answer can be added to the context *)
Lemma asked_more : forall n xs c iv a, asked n c iv -> NoDup xs -> incl xs (nodes (ngraph n)) -> (forall x, In x xs -> ~ In x (keys c)) -> do_prob n iv (values a xs ++ c) <> 0 -> asked n (values a xs ++ c) iv.
Proof.
  intros n xs c iv a (B & Hd & Nc & Ic & Ni & Di & Ts & _) Nx Ix Dx Np. assert (Ek : keys (values a xs ++ c) = xs ++ keys c) by (unfold keys at 1; rewrite map_app; f_equal; exact (keys_values a xs)).
  split; [exact B|]. split; [exact Hd|]. split; [|split; [rewrite Ek; intros v Hv; apply in_app_or in Hv; destruct Hv; auto|auto]].
  rewrite Ek. clear - Nx Nc Dx. induction xs as [|x xs IH]; [exact Nc|]. inversion Nx; subst. cbn [app]. constructor.
  - intro Z. apply in_app_or in Z. destruct Z as [Z|Z]; [auto|]. apply (Dx x (or_introl eq_refl)). exact Z.
  - apply IH; auto. intros q Hq. apply Dx. right. auto.
Qed.

(* every combination of values of the domains has one answer *)
Theorem C91_complete : forall o roles n qs c iv n' f a, valid_order o -> asked n c iv -> query o roles n qs c iv = (n', Ok f) -> (forall v, In v qs -> In (a v) (dom_of (doms n) v)) ->
  exists p, answer f a p /\ 0 <= p /\ p <= 1 /\ forall p', answer f a p' -> p' = p.
Proof.
  intros o roles n qs c iv n' f a O K H W. assert (S := query_scope _ _ _ _ _ _ _ _ O K H). destruct K as (B & Hd & Nc & Ic & Ni & Di & Ts & Nz). destruct S as (Iq & Ii & _).
  destruct (C55_query_conditional o roles n qs c iv n' f O B Hd Nc Ic Ni Di Ts H) as (Nf & If & Ne & Fe & Po & _).
  destruct (proj2 (Fe (map a (fvars f)))) as [p Hp].
  { assert (X : forall v, In v (fvars f) -> In (a v) (dom_of (doms n) v)) by (intros v Hv; apply W, If; auto). clear - X. induction (fvars f) as [|v vs IH]; cbn [map]; constructor; [apply X; left; auto|apply IH; intros w Hw; apply X; right; auto]. }
  exists p. split; [exact Hp|]. assert (E : p = do_prob n iv (combine (fvars f) (map a (fvars f)) ++ c) / do_prob n iv c) by (apply (Po Nz); exact Hp).
  assert (Nn : forall cc, 0 <= do_prob n iv cc) by (intro cc; apply POptDec.do_prob_nonneg; auto).
  assert (Le : do_prob n iv (combine (fvars f) (map a (fvars f)) ++ c) <= do_prob n iv c).
  { generalize (combine (fvars f) (map a (fvars f))). intro l. induction l as [|y l IH]; [apply Qcle_refl|]. apply Qcle_trans with (do_prob n iv (l ++ c)); [apply LBest.do_prob_more; auto|exact IH]. }
  assert (Iv : 0 <= / do_prob n iv c). { unfold Qcle. assert (Q : (this (/ do_prob n iv c) == / this (do_prob n iv c))%Q) by (cbn [this Qcinv Q2Qc]; apply Qred_correct). rewrite Q. change (this 0) with 0%Q. apply Qinv_le_0_compat. apply Nn. }
  split; [|split].
  - rewrite E. unfold Qcdiv. rewrite <- (Qcmult_0_l (/ do_prob n iv c)). apply Qcmult_le_compat_r; [apply Nn|exact Iv].
  - rewrite E. unfold Qcdiv. rewrite <- (Qcmult_inv_r (do_prob n iv c) Nz). apply Qcmult_le_compat_r; [exact Le|exact Iv].
  - intros p' Hp'. transitivity (do_prob n iv (combine (fvars f) (map a (fvars f)) ++ c) / do_prob n iv c); [apply (Po Nz); exact Hp'|symmetry; exact E].
Qed.
Print Assumptions C91_complete.
(* the order in which variables and observations are named, and set order, do not matter *)
Theorem C91_order : forall o o' roles roles' n qs qs' c c' iv n1 n2 f f' a p p', valid_order o -> valid_order o' -> asked n c iv -> NoDup qs -> Permutation qs qs' -> Permutation c c' ->
  query o roles n qs c iv = (n1, Ok f) -> query o' roles' n qs' c' iv = (n2, Ok f') -> answer f a p -> answer f' a p' -> p = p'.
Proof.
  intros o o' roles roles' n qs qs' c c' iv n1 n2 f f' a p p' O O' K Nq Pq Pc H H' A A'.
  assert (K' : asked n c' iv).
  { destruct K as (B & Hd & Nc & Ic & Ni & Di & Ts & Nz). split; [exact B|]. split; [exact Hd|]. split; [exact (Permutation_NoDup (Permutation_map fst Pc) Nc)|]. split; [intros v Hv; apply Ic; exact (Permutation_in _ (Permutation_sym (Permutation_map fst Pc)) Hv)|].
    split; [exact Ni|]. split; [exact Di|]. split; [exact Ts|]. rewrite <- (do_prob_perm n iv c c' Pc). exact Nz. }
  rewrite (answer_is o roles n qs c iv n1 f a p O K Nq H A). rewrite (answer_is o' roles' n qs' c' iv n2 f' a p' O' K' (Permutation_NoDup Pq Nq) H' A').
  rewrite (do_prob_perm n iv c c' Pc). f_equal. apply do_prob_perm. apply Permutation_app; [apply Permutation_map; exact Pq|exact Pc].
Qed.
Print Assumptions C91_order.
(* P(x, y | c) = P(x | c) P(y | c, x) *)
Theorem C91_product : forall o roles n xs ys c iv nf ng nh f g h a p p1 p2, valid_order o -> asked n c iv -> NoDup (xs ++ ys) ->
  query o roles n (xs ++ ys) c iv = (nf, Ok f) -> query o roles n xs c iv = (ng, Ok g) -> query o roles n ys (values a xs ++ c) iv = (nh, Ok h) ->
  answer f a p -> answer g a p1 -> answer h a p2 -> p1 <> 0 -> p = p1 * p2.
Proof.
  intros o roles n xs ys c iv nf ng nh f g h a p p1 p2 O K N Hf Hg Hh Af Ag Ah Nz.
  destruct (nodup_parts xs ys N) as (Nx & Ny & Nxy).
  assert (E := answer_is o roles n _ c iv nf f a p O K N Hf Af). assert (E1 := answer_is o roles n xs c iv ng g a p1 O K Nx Hg Ag).
  destruct (query_scope _ _ _ _ _ _ _ _ O K Hg) as (Ix & Ii & Dx).
  assert (Np : do_prob n iv (values a xs ++ c) <> 0) by (intro Z; apply Nz; rewrite E1, Z; unfold Qcdiv; ring).
  assert (K2 : asked n (values a xs ++ c) iv) by (apply asked_more; auto).
  assert (E2 := answer_is o roles n ys _ iv nh h a p2 O K2 Ny Hh Ah).
  assert (Ep : do_prob n iv (values a (xs ++ ys) ++ c) = do_prob n iv (values a ys ++ values a xs ++ c)).
  { apply do_prob_perm. rewrite values_app, app_assoc. apply Permutation_app_tail. apply Permutation_app_comm. }
  rewrite E, E1, E2, Ep. destruct K as (_ & _ & _ & _ & _ & _ & _ & Nc0). field. auto.
Qed.
Print Assumptions C91_product.
(* Bayes' rule *)
Theorem C91_bayes : forall o roles n xs ys c iv n1 n2 n3 n4 n5 f g h g' h' a p p1 p2 q1 q2, valid_order o -> asked n c iv -> NoDup (xs ++ ys) ->
  query o roles n (xs ++ ys) c iv = (n5, Ok f) -> query o roles n xs c iv = (n1, Ok g) -> query o roles n ys (values a xs ++ c) iv = (n2, Ok h) ->
  query o roles n ys c iv = (n3, Ok g') -> query o roles n xs (values a ys ++ c) iv = (n4, Ok h') ->
  answer f a p -> answer g a p1 -> answer h a p2 -> answer g' a q1 -> answer h' a q2 -> p1 <> 0 -> q1 <> 0 -> p2 = q1 * q2 / p1.
Proof.
  intros o roles n xs ys c iv n1 n2 n3 n4 n5 f g h g' h' a p p1 p2 q1 q2 O K N Hf H1 H2 H3 H4 Af A1 A2 A3 A4 Z1 Z3.
  assert (E := C91_product o roles n xs ys c iv n5 n1 n2 f g h a p p1 p2 O K N Hf H1 H2 Af A1 A2 Z1).
  destruct (nodup_parts xs ys N) as (Nx & Ny & Nxy).
  assert (X : p = q1 * q2).
  { assert (K3 := answer_is o roles n ys c iv n3 g' a q1 O K Ny H3 A3). assert (Kp := answer_is o roles n _ c iv n5 f a p O K N Hf Af).
    destruct (query_scope _ _ _ _ _ _ _ _ O K H3) as (Iy & Ii & Dy).
    assert (Np : do_prob n iv (values a ys ++ c) <> 0) by (intro Z; apply Z3; rewrite K3, Z; unfold Qcdiv; ring).
    assert (K2 : asked n (values a ys ++ c) iv) by (apply asked_more; auto).
    assert (K4 := answer_is o roles n xs _ iv n4 h' a q2 O K2 Nx H4 A4). rewrite Kp, K3, K4. rewrite values_app, <- app_assoc. destruct K as (_ & _ & _ & _ & _ & _ & _ & Nc0). field. auto. }
  rewrite <- X, E. field. exact Z1.
Qed.
Print Assumptions C91_bayes.
(* P(x | c) is the sum of P(x, y | c) over the values of y *)
Theorem C91_marginal : forall o roles n xs ys c iv nf ng f g a p F, valid_order o -> asked n c iv -> NoDup (xs ++ ys) ->
  query o roles n (xs ++ ys) c iv = (nf, Ok f) -> query o roles n xs c iv = (ng, Ok g) -> answer g a p ->
  (forall b, (forall v, In v ys -> In (b v) (dom_of (doms n) v)) -> (forall v, ~ In v ys -> b v = a v) -> answer f b (F b)) ->
  p = total (dom_of (doms n)) ys F a.
Proof.
  intros o roles n xs ys c iv nf ng f g a p F O K N Hf Hg Ag HF.
  destruct (nodup_parts xs ys N) as (Nx & Ny & Nxy).
  destruct (query_scope _ _ _ _ _ _ _ _ O K Hf) as (Iq & Ii & _). assert (Iy : incl ys (nodes (ngraph n))) by (intros v Hv; apply Iq, in_or_app; auto).
  rewrite (answer_is o roles n xs c iv ng g a p O K Nx Hg Ag). assert (Hd := proj1 (proj2 K)). rewrite <- (by_values n iv ys (values a xs ++ c) a Hd Ny Iy).
  transitivity (/ do_prob n iv c * total (dom_of (doms n)) ys (fun b => do_prob n iv (values b ys ++ values a xs ++ c)) a); [unfold Qcdiv; apply Qcmult_comm|].
  rewrite <- total_scale. apply total_ext_in. intros b Wb Ob. rewrite (answer_is o roles n _ c iv nf f b (F b) O K N Hf (HF b Wb Ob)). unfold Qcdiv. rewrite Qcmult_comm. f_equal.
  apply do_prob_perm. rewrite values_app. assert (Ev : values b xs = values a xs).
  { apply map_ext_in. intros x Hx. rewrite Ob; [reflexivity|apply Nxy; auto]. }
  rewrite Ev, app_assoc. apply Permutation_app_tail. apply Permutation_app_comm.
Qed.
Print Assumptions C91_marginal.
(* the questions of the product rule, for the chain A -> B -> C *)
Definition ex_answer (qs : list node) (c : list (node * outcome)) (a : asg) : bool :=
  match query (fun _ l => l) (Ok tt) ex_chain qs c [] with (_, Ok f) => existsb (fun e => olist_eqb (fst e) (map a (fvars f)) && negb (oeqb (snd e) 0)) (fentries f) | _ => false end.
Lemma ex_answer_ok : forall qs c a, ex_answer qs c a = true -> exists n' f p, query (fun _ l => l) (Ok tt) ex_chain qs c [] = (n', Ok f) /\ answer f a p /\ p <> 0.
Proof.
  intros qs c a H. unfold ex_answer in H. destruct (query (fun _ l => l) (Ok tt) ex_chain qs c []) as [n' [f|e]]; [|discriminate]. apply existsb_exists in H. destruct H as ([xs p] & Hi & H).
  apply andb_true_iff in H. destruct H as [H1 H2]. cbn [fst snd] in H1, H2. apply olist_eqb_iff in H1. subst xs. exists n', f, p. split; [reflexivity|]. split; [exact Hi|].
  intros ->. discriminate H2.
Qed.
Example C91_example : let a := fun _ : node => 1 in asked ex_chain [] [] /\ NoDup (["A"] ++ ["C"]) /\
  (exists n' f p, query (fun _ l => l) (Ok tt) ex_chain (["A"] ++ ["C"]) [] [] = (n', Ok f) /\ answer f a p /\ p <> 0) /\
  (exists n' f p, query (fun _ l => l) (Ok tt) ex_chain ["A"] [] [] = (n', Ok f) /\ answer f a p /\ p <> 0) /\
  (exists n' f p, query (fun _ l => l) (Ok tt) ex_chain ["C"] (values a ["A"] ++ []) [] = (n', Ok f) /\ answer f a p /\ p <> 0) /\
  (exists n' f p, query (fun _ l => l) (Ok tt) ex_chain ["A"] (values a ["C"] ++ []) [] = (n', Ok f) /\ answer f a p /\ p <> 0).
Proof.
  cbv zeta. split.
  - split; [exact (proj1 ex_chain_built)|]. split; [exact (proj2 ex_chain_built)|]. split; [constructor|]. split; [intros v []|]. split; [constructor|]. split; [intros v y []|]. split; [intros v u t []|].
    rewrite do_prob_nil; [discriminate|exact (proj2 ex_chain_built)|constructor|intros v []|intros v y []].
  - split; [repeat constructor; cbn; intuition discriminate|]. repeat (split; [apply ex_answer_ok; vm_compute; reflexivity|]). apply ex_answer_ok; vm_compute; reflexivity.
Qed.

(* ---- what is set is certain ---- *)
Lemma set_seen : forall n iv c x v, In (x, v) iv -> do_prob n iv ((x, v) :: c) = do_prob n iv c.
Proof.
  intros n iv c x v H. unfold do_prob. apply total_ext. intro a. destruct (agrees c a) eqn:E.
  - destruct (agrees ((x, v) :: c) a) eqn:E'; [reflexivity|]. symmetry. unfold do_joint. destruct (agrees iv a) eqn:E2; [|reflexivity]. exfalso.
    rewrite agrees_iff in E, E2. assert (K : agrees ((x, v) :: c) a = true); [|congruence]. apply agrees_iff. intros w y [X|X]; [injection X as <- <-; apply E2; exact H|apply E; exact X].
  - destruct (agrees ((x, v) :: c) a) eqn:E'; [|reflexivity]. exfalso. assert (K : agrees c a = true); [|congruence]. rewrite agrees_iff in E'. apply agrees_iff. intros w y X. apply E'. right. exact X.
Qed.
Lemma set_other : forall n iv c x v y, In (x, v) iv -> y <> v -> do_prob n iv ((x, y) :: c) = 0.
Proof.
  intros n iv c x v y H Ny. unfold do_prob. transitivity (total (dom_of (doms n)) (nodes (ngraph n)) (fun _ => 0) (fun _ => 0)); [|apply total_zero]. apply total_ext. intro a.
  destruct (agrees ((x, y) :: c) a) eqn:E; [|reflexivity]. unfold do_joint. destruct (agrees iv a) eqn:E2; [|reflexivity]. exfalso. rewrite agrees_iff in E, E2. apply Ny.
  transitivity (a x); [symmetry; apply E; left; reflexivity|apply E2; exact H].
Qed.
(* a variable that is set has the value it is set to *)
Theorem C91_set : forall o roles n x v c iv n' f a p, valid_order o -> asked n c iv -> In (x, v) iv -> query o roles n [x] c iv = (n', Ok f) -> answer f a p -> (a x = v -> p = 1) /\ (a x <> v -> p = 0).
Proof.
  intros o roles n x v c iv n' f a p O K H Q A. assert (N : NoDup [x]) by (repeat constructor; auto). assert (E := answer_is o roles n [x] c iv n' f a p O K N Q A). cbn [values map app] in E.
  assert (Nz : do_prob n iv c <> 0) by apply K. split; intro X.
  - rewrite E, X, set_seen by exact H. apply Qcmult_inv_r. exact Nz.
  - rewrite E, (set_other n iv c x v (a x) H X). unfold Qcdiv. ring.
Qed.
Print Assumptions C91_set.
(* observing, too, that it has this value changes no answer *)
Theorem C91_seen : forall o roles n qs x v c iv n1 n2 f g a p p', valid_order o -> asked n c iv -> NoDup qs -> In (x, v) iv -> In x (nodes (ngraph n)) -> ~ In x (keys c) ->
  query o roles n qs c iv = (n1, Ok f) -> query o roles n qs ((x, v) :: c) iv = (n2, Ok g) -> answer f a p -> answer g a p' -> p = p'.
Proof.
  intros o roles n qs x v c iv n1 n2 f g a p p' O K N H Hx Nx Q1 Q2 A1 A2.
  assert (K2 : asked n ((x, v) :: c) iv).
  { destruct K as (B & Hd & Nc & Ic & Ni & Di & Ts & Nz). split; [exact B|]. split; [exact Hd|]. split; [constructor; auto|]. split; [intros w [<-|Hw]; auto|]. split; [exact Ni|]. split; [exact Di|]. split; [exact Ts|]. rewrite set_seen by exact H. exact Nz. }
  rewrite (answer_is o roles n qs c iv n1 f a p O K N Q1 A1), (answer_is o roles n qs _ iv n2 g a p' O K2 N Q2 A2). rewrite set_seen by exact H. f_equal.
  rewrite (do_prob_perm n iv (values a qs ++ (x, v) :: c) ((x, v) :: values a qs ++ c)) by (apply Permutation_sym, Permutation_middle). symmetry. apply set_seen. exact H.
Qed.
Print Assumptions C91_seen.
(* setting B in the chain *)
Example C91_set_example : asked ex_chain [] [("B", 1)] /\ In "B" (nodes (ngraph ex_chain)) /\
  (exists n' f, query (fun _ l => l) (Ok tt) ex_chain ["B"] [] [("B", 1)] = (n', Ok f) /\ exists p, answer f (fun _ => 1) p) /\
  (exists n' f, query (fun _ l => l) (Ok tt) ex_chain ["C"] [("B", 1)] [("B", 1)] = (n', Ok f) /\ exists p, answer f (fun _ => 1) p).
Proof.
  assert (D : in_domains ex_chain [("B", 1)]) by (intros v y [X|[]]; injection X as <- <-; apply PEffects.chain_in; right; left; reflexivity).
  assert (I : incl (keys [("B", 1)]) (nodes (ngraph ex_chain))) by (intros v [<-|[]]; vm_compute; tauto). assert (N : NoDup (keys [("B", 1)])) by (repeat constructor; auto).
  split; [|split; [vm_compute; tauto|]].
  - split; [exact (proj1 ex_chain_built)|]. split; [exact (proj2 ex_chain_built)|]. split; [constructor|]. split; [intros v []|]. split; [exact N|]. split; [exact D|]. split; [apply PEffects.chain_sorted|].
    rewrite do_prob_nil; [discriminate|exact (proj2 ex_chain_built)|exact N|exact I|exact D].
  - assert (G : forall qs c, match query (fun _ l => l) (Ok tt) ex_chain qs c [("B", 1)] with (_, Ok f) => existsb (fun e => olist_eqb (fst e) (map (fun _ => 1) (fvars f))) (fentries f) | _ => false end = true ->
      exists n' f, query (fun _ l => l) (Ok tt) ex_chain qs c [("B", 1)] = (n', Ok f) /\ exists p, answer f (fun _ => 1) p).
    { intros qs c H. destruct (query (fun _ l => l) (Ok tt) ex_chain qs c [("B", 1)]) as [n' [f|e]]; [|discriminate]. exists n', f. split; [reflexivity|]. apply existsb_exists in H. destruct H as ([xs p] & Hi & H). apply olist_eqb_iff in H. cbn [fst] in H. subst xs. exists p. exact Hi. }
    split; apply G; vm_compute; reflexivity.
Qed.

(* interventions act forwards only: setting variables that have no directed path to anything asked or observed changes no answer *)
Theorem C91_forwards : forall o o' roles roles' n qs c iv n1 n2 f g a p p', valid_order o -> valid_order o' -> asked n c [] -> NoDup qs -> NoDup (keys iv) -> incl (keys iv) (nodes (ngraph n)) -> in_domains n iv -> tables_sorted n iv ->
  (forall x v, In x (keys iv) -> In v qs \/ In v (keys c) -> ~ reach (ngraph n) x v) ->
  query o roles n qs c [] = (n1, Ok f) -> query o' roles' n qs c iv = (n2, Ok g) -> answer f a p -> answer g a p' -> p = p'.
Proof.
  intros o o' roles roles' n qs c iv n1 n2 f g a p p' O O' K N Ni Ii Di Ts Far Q1 Q2 A1 A2. destruct (query_scope _ _ _ _ _ _ _ _ O K Q1) as (Iq & _ & _).
  assert (Hd : distribution n) by apply K. assert (Ic : incl (keys c) (nodes (ngraph n))) by apply K.
  assert (Ek : keys (values a qs ++ c) = qs ++ keys c) by (unfold keys at 1; rewrite map_app; f_equal; exact (keys_values a qs)).
  assert (E1 : do_prob n iv c = do_prob n [] c) by (apply do_prob_unaffected; auto; intros x v Hx Hv; apply Far; auto).
  assert (E2 : do_prob n iv (values a qs ++ c) = do_prob n [] (values a qs ++ c)).
  { apply do_prob_unaffected; auto; [rewrite Ek; intros v Hv; apply in_app_or in Hv; destruct Hv; auto|]. intros x v Hx Hv. rewrite Ek in Hv. apply Far; auto. apply in_app_or. exact Hv. }
  assert (K2 : asked n c iv). { destruct K as (B & _ & Nc & _ & _ & _ & _ & Nz). split; [exact B|]. split; [exact Hd|]. split; [exact Nc|]. split; [exact Ic|]. split; [exact Ni|]. split; [exact Di|]. split; [exact Ts|]. rewrite E1. exact Nz. }
  rewrite (answer_is o roles n qs c [] n1 f a p O K N Q1 A1), (answer_is o' roles' n qs c iv n2 g a p' O' K2 N Q2 A2). rewrite E1, E2. reflexivity.
Qed.
Print Assumptions C91_forwards.
Example C91_forwards_example : asked ex_chain [] [] /\ (forall x v, In x (keys [("B", 1)]) -> In v ["A"] \/ In v (keys ([] : list (node * outcome))) -> ~ reach (ngraph ex_chain) x v) /\
  (exists n' f p, query (fun _ l => l) (Ok tt) ex_chain ["A"] [] [] = (n', Ok f) /\ answer f (fun _ => 1) p /\ p <> 0) /\
  (exists n' f, query (fun _ l => l) (Ok tt) ex_chain ["A"] [] [("B", 1)] = (n', Ok f)).
Proof.
  split; [exact (proj1 C91_example)|]. split; [|split].
  - intros x v [<-|[]] [[<-|[]]|[]]. exact (proj1 (proj2 (proj2 (proj2 (proj2 (proj2 PEffects.C42_example)))))).
  - apply ex_answer_ok. vm_compute. reflexivity.
  - assert (X : match snd (query (fun _ l => l) (Ok tt) ex_chain ["A"] [] [("B", 1)]) with Ok _ => true | _ => false end = true) by (vm_compute; reflexivity).
    destruct (query (fun _ l => l) (Ok tt) ex_chain ["A"] [] [("B", 1)]) as [n' [f|e]]; [|discriminate X]. exists n', f. reflexivity.
Qed.
