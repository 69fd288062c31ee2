(* C86: what printing a relationship shows. *)
From Coq Require Import Ascii String List Bool Arith QArith Qcanon Lia Permutation Sorted.
Import ListNotations.
From Verif Require Import MBase MGraph MMacid MCpd MRepr Spec SpecC SpecRepr LBase LGraph LQc LCpd LSum LDep LTotal.
Local Open Scope string_scope.
Local Open Scope list_scope.
Local Open Scope Qc_scope.

(* ---- sorting ---- *)
Lemma sinsert_perm : forall x l, Permutation (sinsert x l) (x :: l).
Proof.
  intros x. induction l as [|y l IH]; cbn [sinsert]; auto. destruct (String.leb x y); auto. rewrite IH. apply perm_swap.
Qed.
Lemma ssort_perm : forall l, Permutation (ssort l) l.
Proof. induction l as [|x l IH]; cbn; auto. rewrite sinsert_perm. auto. Qed.
Lemma sinsert_sorted : forall x l, alphabetical l -> alphabetical (sinsert x l).
Proof.
  intros x. induction l as [|y l IH]; intro S; cbn [sinsert]; [constructor; constructor|]. destruct (String.leb x y) eqn:E; [constructor; auto|].
  assert (E' : String.leb y x = true) by (destruct (String.leb_total x y); congruence).
  inversion S as [|? ? S1 S2]; subst. constructor; [apply IH; auto|]. destruct l as [|z l]; cbn [sinsert]; [constructor; auto|].
  destruct (String.leb x z); constructor; auto. inversion S2; auto.
Qed.
Lemma ssort_sorted : forall l, alphabetical (ssort l).
Proof. induction l as [|x l IH]; cbn; [constructor|apply sinsert_sorted; auto]. Qed.

(* ---- lines ---- *)
Lemma certain_fits : forall d, fits d (certain d d).
Proof.
  intro d. assert (H : forall l l', d = l' ++ l -> (forall x, ~ In (x, Some 1) l') -> fits d (certain l d)).
  { induction l as [|[x [q|]] l IH]; intros l' E N; cbn [certain].
    - cbn. split; auto. intros x K. apply (N x). rewrite app_nil_r in E. subst l'. exact K.
    - destruct (oeqb q 1) eqn:Eq.
      + cbn. unfold gives. rewrite E. apply in_or_app. right. left. apply Qc_eq_bool_correct in Eq. congruence.
      + apply (IH (l' ++ [(x, Some q)])); [rewrite <- app_assoc; auto|]. intros y K. apply in_app_or in K. destruct K as [K|[K|[]]]; [apply (N y); auto|].
        injection K as -> ->. vm_compute in Eq. discriminate.
    - apply (IH (l' ++ [(x, None)])); [rewrite <- app_assoc; auto|]. intros y K. apply in_app_or in K. destruct K as [K|[K|[]]]; [apply (N y); auto|discriminate]. }
  apply (H d []); auto.
Qed.
Lemma in_keys_dset : forall (A : Type) k k' (v : A) d, k' = k \/ In k' (keys d) -> In k' (keys (dset k v d)).
Proof.
  intros A k k' v d H. rewrite keys_dset. destruct (mem k (keys d)) eqn:M; [|apply in_or_app; destruct H as [->|H]; cbn; auto].
  destruct H as [->|H]; auto. apply mem_In; auto.
Qed.
Lemma repr_dict_ok : forall name f pvs ds, Forall2 (fun pv d => stochastic_function f pv = Ok d) pvs ds -> forall acc,
  exists dic, repr_dict name f pvs acc = Ok dic /\ (NoDup (keys acc) -> NoDup (keys dic)) /\
    (forall k s, lookup k dic = Some s -> lookup k acc = Some s \/ exists pv d, In pv pvs /\ stochastic_function f pv = Ok d /\ k = name pv /\ s = certain d d) /\
    (forall k, In k (keys acc) -> In k (keys dic)) /\ forall pv, In pv pvs -> In (name pv) (keys dic).
Proof.
  intros name f pvs ds F. induction F as [|pv d pvs ds E F IH]; intro acc; cbn [repr_dict].
  - exists acc. repeat split; auto. intros pv [].
  - rewrite E. destruct (IH (dset (name pv) (certain d d) acc)) as (dic & -> & Nd & H1 & H2 & H3). exists dic. split; auto. split; [intro N; apply Nd, NoDup_keys_dset; auto|]. split; [|split].
    + intros k s K. destruct (H1 k s K) as [K'|(pv' & d' & P1 & P2)]; [|right; exists pv', d'; cbn; tauto].
      rewrite lookup_dset in K'. destruct (String.eqb_spec k (name pv)) as [->|Ne]; [|left; auto]. right. exists pv, d. injection K' as <-. cbn. auto.
    + intros k K. apply H2, in_keys_dset. auto.
    + intros pv' [<-|K]; [|auto]. apply H2, in_keys_dset. auto.
Qed.
Lemma lines_of : forall (dic : list (string * shown)) l, incl l (keys dic) -> exists ls, map_r (fun k => match lookup k dic with Some s => Ok (k, s) | None => Err KeyError end) l = Ok ls /\
  keys ls = l /\ forall k s, In (k, s) ls <-> In k l /\ lookup k dic = Some s.
Proof.
  intros dic. induction l as [|k l IH]; intro I; cbn [map_r]; [exists []; split; auto; split; auto; intros k s; cbn; tauto|].
  destruct IH as (ls & E & Ek & H); [intros x Hx; apply I; right; auto|]. assert (Hk : In k (keys dic)) by (apply I; left; auto).
  destruct (lookup k dic) as [s|] eqn:L; [|exfalso; apply lookup_None_keys in L; contradiction]. cbn [bind]. rewrite E. cbn [bind]. exists ((k, s) :: ls). split; auto. split; [cbn; f_equal; auto|].
  intros k' s'. cbn. rewrite H. split; [intros [K|K]; [injection K as <- <-; auto|tauto]|]. intros [[<-|K] K']; [left; congruence|auto].
Qed.

(* ---- C86 ---- *)
Section Printed.
  Variables (name : list (node * outcome) -> string) (g : graph) (doms : domains) (cards : list node -> result (list nat)) (v : node).
  Hypothesis Hv : In v (nodes g).
  Lemma printed : forall f force k t, init_table g doms cards v f force k = Ok t -> written_apart name doms (parents g v) ->
    exists ls, repr_lines name g doms v f = Ok ls /\ alphabetical (keys ls) /\ NoDup (keys ls) /\ (forall k, In k (keys ls) <-> exists pv, context_of doms (parents g v) pv /\ k = name pv) /\
      forall pv s, context_of doms (parents g v) pv -> (In (name pv, s) ls <-> exists w, call f pv = Ok w /\ s = certain (dist_of w) (dist_of w)).
  Proof.
    intros f force k t H Wa. destruct (ready_dec doms (parents g v)) as [R|(p & P1 & P2)]; [|rewrite (not_ready g doms v f force k cards Hv p P1 P2) in H; discriminate].
    destruct (calls_of_ok g doms v f force k cards Hv R t H) as [ds A]. unfold repr_lines. rewrite (contexts_ok g doms v Hv R).
    destruct (repr_dict_ok name f _ ds A []) as (dic & -> & Nd & H1 & _ & H3). cbn [bind]. specialize (Nd (NoDup_nil _)).
    destruct (lines_of dic (ssort (keys dic))) as (ls & -> & Ek & Hl); [intros x Hx; apply (Permutation_in _ (ssort_perm (keys dic))); auto|].
    assert (Ik : forall x, In x (ssort (keys dic)) <-> In x (keys dic)) by (intro x; split; apply Permutation_in; [|symmetry]; apply ssort_perm).
    assert (Ex : forall x, In x (keys dic) <-> exists s, lookup x dic = Some s). { intro x. destruct (lookup x dic) as [s|] eqn:L; split; intro K; eauto; [|apply lookup_None_keys in L; contradiction|destruct K; discriminate].
      destruct (in_dec string_dec x (keys dic)) as [I|I]; auto. apply lookup_None_keys in I. congruence. }
    exists ls. split; auto. rewrite Ek. split; [apply ssort_sorted|]. split; [apply (Permutation_NoDup (Permutation_sym (ssort_perm _)) Nd)|]. split.
    - intro x. rewrite Ik. split.
      + intro K. apply Ex in K. destruct K as [s K]. destruct (H1 x s K) as [K'|(pv & d & Q1 & Q2 & -> & _)]; [discriminate|]. exists pv. split; auto. apply (proj1 (in_contexts doms (parents g v) pv R)); auto.
      + intros (pv & C & ->). apply H3. apply in_contexts; auto.
    - intros pv s C. assert (Ip := proj2 (in_contexts doms (parents g v) pv R) C). rewrite Hl, Ik.
      assert (U : forall s, lookup (name pv) dic = Some s -> exists w, call f pv = Ok w /\ s = certain (dist_of w) (dist_of w)).
      { intros s' K. destruct (H1 _ _ K) as [K'|(pv' & d & Q1 & Q2 & Q3 & ->)]; [discriminate|]. apply in_contexts in Q1; auto. assert (pv' = pv) as -> by (symmetry; apply Wa; auto).
        destruct (call_dist f pv d Q2) as (w & W & <-). eauto. }
      split; [intros [_ K]; auto|]. intros (w & W & ->). split; [apply H3; auto|]. destruct (proj1 (Ex _) (H3 pv Ip)) as [s K]. rewrite K. destruct (U s K) as (w' & W' & ->). congruence.
  Qed.
End Printed.
(* a relationship that has a table is printed with one line for each context, in alphabetical order; it shows the outcome that has probability 1, if there is one, and else the distribution *)
Theorem C86_lines : forall name g doms cards v f force k t, In v (nodes g) -> init_table g doms cards v f force k = Ok t -> written_apart name doms (parents g v) ->
  exists ls, repr_lines name g doms v f = Ok ls /\ alphabetical (keys ls) /\ NoDup (keys ls) /\ (forall k, In k (keys ls) <-> exists pv, context_of doms (parents g v) pv /\ k = name pv) /\
    forall pv s, context_of doms (parents g v) pv -> In (name pv, s) ls -> exists w, call f pv = Ok w /\ fits (dist_of w) s.
Proof.
  intros name g doms cards v f force k t Hv H Wa. destruct (printed name g doms cards v Hv f force k t H Wa) as (ls & E & S & N & K & L). exists ls. repeat (split; [assumption|]).
  intros pv s C Hs. apply (L pv s C) in Hs. destruct Hs as (w & W & ->). exists w. split; auto. apply certain_fits.
Qed.
Print Assumptions C86_lines.
(* before the parents have domains nothing is shown *)
Theorem C86_waiting : forall name g doms v f p, In v (nodes g) -> In p (parents g v) -> lookup p doms = None -> repr_lines name g doms v f = Ok [].
Proof.
  intros name g doms v f p Hv Hp L. unfold repr_lines, parent_values, get_parents. rewrite (proj2 (mem_In _ _) Hv). cbn [bind]. rewrite (parent_domains_err doms (parents g v) p Hp L). reflexivity.
Qed.
Print Assumptions C86_waiting.

(* the columns, context by context *)
Lemma columns_of : forall g doms cards v f force k t, In v (nodes g) -> ready doms (parents g v) -> init_table g doms cards v f force k = Ok t ->
  exists ds, Forall2 (fun pv d => stochastic_function f pv = Ok d) (map (combine (parents g v)) (product (map (dom_of doms) (parents g v)))) ds /\
    tcols t = map (fun d => map (complete (tdom t) d) (tdom t)) ds.
Proof.
  intros g doms cards v f force k t Hv R H. destruct (calls_of_ok g doms v f force k cards Hv R t H) as [ds A]. exists ds. split; [exact A|]. rewrite (init_eq g doms v f force k cards Hv R ds A) in H.
  destruct (forallb _ (flat_map (map fst) ds)); [|discriminate]. destruct (cards (parents g v)) as [ec|e]; cbn [bind] in H; [|discriminate]. cbv zeta in H.
  repeat match type of H with (if ?b then _ else _) = _ => destruct b; [discriminate|] end. injection H as <-. reflexivity.
Qed.
Lemma point_column : forall (h : outcome -> Qc) dom x, NoDup dom -> (forall y, In y dom -> 0 <= h y) -> qsum (map h dom) = 1 -> In x dom -> h x = 1 -> forall y, In y dom -> y <> x -> h y = 0.
Proof.
  intros h dom x N P S I E y Iy Ne. apply in_split in I. destruct I as (l1 & l2 & ->). assert (Hs : qsum (map h (l1 ++ l2)) = 0).
  { assert (K : Permutation (map h (l1 ++ x :: l2)) (h x :: map h (l1 ++ l2))) by (rewrite <- map_cons; apply Permutation_map; symmetry; apply Permutation_middle).
    apply qsum_perm in K. rewrite S in K. cbn [qsum fold_right] in K. fold (qsum (map h (l1 ++ l2))) in K. rewrite E in K. assert (X : qsum (map h (l1 ++ l2)) = 1 + qsum (map h (l1 ++ l2)) - 1) by ring. rewrite X, <- K. ring. }
  apply (qsum_zero_each _ h (l1 ++ l2)); auto.
  - intros z Hz. apply P. apply in_app_or in Hz. apply in_or_app. cbn. tauto.
  - apply in_app_or in Iy. apply in_or_app. destruct Iy as [K|[K|K]]; auto. congruence.
Qed.
(* if the probabilities add up, an outcome that is shown for a context is certain *)
Theorem C86_certain : forall name g doms cards v f force k t ls pv x, In v (nodes g) -> init_table g doms cards v f force k = Ok t -> written_apart name doms (parents g v) ->
  answers doms (parents g v) f -> adds_up t -> repr_lines name g doms v f = Ok ls -> context_of doms (parents g v) pv -> In (name pv, SOut x) ls ->
  exists col, nth_error (tcols t) (context_index doms pv) = Some col /\ In x (tdom t) /\ forall i y, nth_error (tdom t) i = Some y -> nth_error col i = Some (if Qc_eq_dec y x then 1 else 0).
Proof.
  intros name g doms cards v f force k t ls pv x Hv H Wa An Ad El C Hl. destruct (C86_lines name g doms cards v f force k t Hv H Wa) as (ls' & El' & _ & _ & _ & L). rewrite El in El'. injection El' as <-.
  destruct (L pv _ C Hl) as (w & W & G). cbn in G.
  destruct (ready_dec doms (parents g v)) as [R|(p & P1 & P2)]; [|rewrite (not_ready g doms v f force k cards Hv p P1 P2) in H; discriminate].
  destruct (init_tabulates g doms v f force k cards Hv R t H) as ((_ & _ & Nd & _ & _ & _ & _ & Tb) & _). destruct (Tb pv C) as (col & w' & Ec & W' & Id & Cl & Pc). rewrite W in W'. injection W' as <-.
  destruct (An pv C) as (w' & W' & Di). rewrite W in W'. injection W' as <-. specialize (Cl Di). apply column_unique in Cl; auto. exists col. split; auto.
  assert (Ix : In x (tdom t)) by (apply Id; unfold gives in G; apply (in_map fst) in G; exact G). split; auto. subst col. intros i y Hy. rewrite nth_error_map, Hy. cbn [option_map]. f_equal.
  assert (E1 := complete_given (tdom t) (dist_of w) x 1 Di G). destruct (Qc_eq_dec y x) as [->|Ne]; auto. apply (point_column (complete (tdom t) (dist_of w)) (tdom t) x); auto.
  - intros z Hz. apply Pc. apply in_map. auto.
  - apply Ad. apply nth_error_In in Ec. auto.
  - apply nth_error_In in Hy. auto.
Qed.
Print Assumptions C86_certain.
(* so for a given domain what is printed determines the table *)
Theorem C86_determines : forall name g doms cards v f1 f2 force1 force2 k1 k2 t1 t2, In v (nodes g) ->
  init_table g doms cards v f1 force1 k1 = Ok t1 -> init_table g doms cards v f2 force2 k2 = Ok t2 -> written_apart name doms (parents g v) ->
  answers doms (parents g v) f1 -> answers doms (parents g v) f2 -> adds_up t1 -> adds_up t2 -> tdom t1 = tdom t2 ->
  repr_lines name g doms v f1 = repr_lines name g doms v f2 -> tcols t1 = tcols t2.
Proof.
  intros name g doms cards v f1 f2 force1 force2 k1 k2 t1 t2 Hv H1 H2 Wa A1 A2 S1 S2 Ed Er.
  destruct (ready_dec doms (parents g v)) as [R|(p & P1 & P2)]; [|rewrite (not_ready g doms v f1 force1 k1 cards Hv p P1 P2) in H1; discriminate].
  destruct (columns_of g doms cards v f1 force1 k1 t1 Hv R H1) as (ds1 & F1 & E1). destruct (columns_of g doms cards v f2 force2 k2 t2 Hv R H2) as (ds2 & F2 & E2).
  destruct (printed name g doms cards v Hv f1 force1 k1 t1 H1 Wa) as (ls & El & _ & _ & _ & L1). destruct (printed name g doms cards v Hv f2 force2 k2 t2 H2 Wa) as (ls2 & El2 & _ & _ & _ & L2). rewrite Er, El2 in El. injection El as <-.
  assert (Same : forall pv d1 d2, context_of doms (parents g v) pv -> stochastic_function f1 pv = Ok d1 -> stochastic_function f2 pv = Ok d2 -> certain d1 d1 = certain d2 d2).
  { intros pv d1 d2 C Q1 Q2. destruct (call_dist f1 pv d1 Q1) as (w1 & W1 & <-). destruct (call_dist f2 pv d2 Q2) as (w2 & W2 & <-).
    assert (K := proj2 (L1 pv _ C) (ex_intro _ w1 (conj W1 eq_refl))). apply (L2 pv _ C) in K. destruct K as (w & W & K). congruence. }
  destruct (init_tabulates g doms v f1 force1 k1 cards Hv R t1 H1) as ((_ & _ & Nd & _ & _ & _ & _ & Tb1) & _). destruct (init_tabulates g doms v f2 force2 k2 cards Hv R t2 H2) as ((_ & _ & _ & _ & _ & _ & _ & Tb2) & _).
  assert (Pt : forall f t pv d x, (forall pv, context_of doms (parents g v) pv -> exists col w, nth_error (tcols t) (context_index doms pv) = Some col /\ call f pv = Ok w /\ (forall x, In x (map fst (dist_of w)) -> In x (tdom t)) /\ (is_dict (dist_of w) -> column (tdom t) (dist_of w) col) /\ prob_column col) ->
    NoDup (tdom t) -> answers doms (parents g v) f -> adds_up t -> context_of doms (parents g v) pv -> stochastic_function f pv = Ok d -> gives d x 1 -> forall y, In y (tdom t) -> complete (tdom t) d y = if Qc_eq_dec y x then 1 else 0).
  { intros f t pv d x Tb N An Ad C Q G y Hy. destruct (Tb pv C) as (col & w & Ec & W & Id & Cl & Pc). destruct (An pv C) as (w' & W' & Di). rewrite W in W'. injection W' as <-.
    rewrite (dist_call f pv w W) in Q. injection Q as <-. specialize (Cl Di). apply column_unique in Cl; auto. subst col. assert (E := complete_given (tdom t) (dist_of w) x 1 Di G).
    destruct (Qc_eq_dec y x) as [->|Ne]; auto. apply (point_column (complete (tdom t) (dist_of w)) (tdom t) x); auto.
    - intros z Hz. apply Pc. apply in_map. auto.
    - apply Ad. apply nth_error_In in Ec. auto.
    - apply Id. unfold gives in G. apply (in_map fst) in G. exact G. }
  rewrite E1, E2, <- Ed. assert (Hc : forall pv, In pv (map (combine (parents g v)) (product (map (dom_of doms) (parents g v)))) -> context_of doms (parents g v) pv) by (intros pv K; apply in_contexts; auto).
  clear - F1 F2 Hc Same Pt Tb1 Tb2 Nd A1 A2 S1 S2 Ed. revert ds2 F2. induction F1 as [|pv d1 pvs ds1 Q1 F1 IH]; intros ds2 F2; inversion F2 as [|? d2 ? ds2' Q2 F2']; subst; auto. cbn [map]. f_equal; [|apply IH; auto; intros; apply Hc; right; auto].
  assert (C : context_of doms (parents g v) pv) by (apply Hc; left; auto). assert (K := Same pv d1 d2 C Q1 Q2). assert (G1 := certain_fits d1). assert (G2 := certain_fits d2). rewrite K in G1. destruct (certain d2 d2) as [x|d]; cbn in G1, G2.
  - apply map_ext_in. intros y Hy. rewrite (Pt f1 t1 pv d1 x Tb1 Nd A1 S1 C Q1 G1 y Hy). rewrite Ed in Hy, Nd. rewrite Ed. symmetry. apply (Pt f2 t2 pv d2 x Tb2 Nd A2 S2 C Q2 G2 y Hy).
  - destruct G1 as [<- _], G2 as [<- _]. auto.
Qed.
Print Assumptions C86_determines.

(* ---- the text ---- *)
Lemma app_inv : forall a b b' : string, (a ++ b = a ++ b')%string -> b = b'.
Proof. induction a as [|c a IH]; intros b b' H; auto. apply IH. injection H; auto. Qed.
Lemma app_assoc_s : forall a b c : string, ((a ++ b) ++ c = a ++ (b ++ c))%string.
Proof. induction a as [|x a IH]; intros b c; auto. cbn. f_equal. apply IH. Qed.
Lemma length_app_s : forall a b : string, String.length (a ++ b) = (String.length a + String.length b)%nat.
Proof. induction a as [|x a IH]; intro b; cbn; auto. Qed.
Lemma split_char : forall k a a' b b', without k a -> without k a' -> (a ++ String (ascii_of_nat k) b = a' ++ String (ascii_of_nat k) b')%string -> a = a' /\ b = b'.
Proof.
  intros k. induction a as [|x a IH]; intros [|x' a'] b b' N N' H.
  - injection H; auto.
  - exfalso. injection H as H _. apply N'. left. auto.
  - exfalso. injection H as H _. apply N. left. auto.
  - injection H as -> H. destruct (IH a' b b') as [-> ->]; auto; [intro K; apply N; right; auto|intro K; apply N'; right; auto].
Qed.
Lemma without_app : forall k a b, without k (a ++ b)%string <-> without k a /\ without k b.
Proof.
  intros k a b. unfold without. assert (E : list_ascii_of_string (a ++ b) = list_ascii_of_string a ++ list_ascii_of_string b) by (induction a as [|x a IH]; cbn; f_equal; auto).
  rewrite E. rewrite in_app_iff. tauto.
Qed.
Lemma concat_inj : forall ls ls' : list string, Forall (fun l => without 10 l /\ l <> ""%string) ls -> Forall (fun l => without 10 l /\ l <> ""%string) ls' -> String.concat newline ls = String.concat newline ls' -> ls = ls'.
Proof.
  induction ls as [|l ls IH]; intros [|l' ls'] F F' E; auto.
  - exfalso. inversion F' as [|? ? [N' Ne'] F2']; subst. destruct ls'; cbn in E; [congruence|]. destruct l'; [congruence|discriminate].
  - exfalso. inversion F as [|? ? [N Ne] F2]; subst. destruct ls; cbn in E; [congruence|]. destruct l; [congruence|discriminate].
  - inversion F as [|? ? [N Ne] F2]; subst. inversion F' as [|? ? [N' Ne'] F2']; subst.
    assert (Z : forall x y z, without 10 x -> x <> (y ++ newline ++ z)%string) by (intros x y z W ->; apply without_app in W; destruct W as [_ W]; apply W; left; reflexivity).
    destruct ls as [|m ls], ls' as [|m' ls'].
    + cbn in E. congruence.
    + exfalso. apply (Z l l' (String.concat newline (m' :: ls')) N). exact E.
    + exfalso. apply (Z l' l (String.concat newline (m :: ls)) N'). symmetry. exact E.
    + destruct (split_char 10 l l' (String.concat newline (m :: ls)) (String.concat newline (m' :: ls'))) as [-> E']; auto. f_equal. apply IH; auto.
Qed.
Lemma line_inj : forall show l l', (show (snd l) = show (snd l') -> snd l = snd l') -> without 62 (fst l) -> without 62 (fst l') -> line_text show l = line_text show l' -> l = l'.
Proof.
  intros show [k s] [k' s'] Sh N N' E. unfold line_text in E. cbn [fst snd] in *.
  assert (W : forall x, without 62 x -> without 62 (x ++ "  -")%string) by (intros x Wx; apply without_app; split; auto; intros [K|[K|[K|[]]]]; discriminate).
  assert (R : forall x y, (x ++ "  ->  " ++ y = (x ++ "  -") ++ String (ascii_of_nat 62) ("  " ++ y))%string) by (intros x y; rewrite app_assoc_s; reflexivity). rewrite !R in E.
  destruct (split_char 62 _ _ _ _ (W k N) (W k' N') E) as [E1 E2]. injection E2 as E2. apply Sh in E2. subst s'. f_equal.
  assert (Q : forall x, (x ++ "  -" = x ++ String (ascii_of_nat 32) " -")%string) by reflexivity. clear - E1. revert k' E1. induction k as [|c k IH]; intros [|c' k'] E; auto.
  - exfalso. injection E as _ E. apply (f_equal String.length) in E. destruct k' as [|? [|? ?]]; cbn in E; try discriminate. rewrite length_app_s in E. cbn in E. lia.
  - exfalso. injection E as _ E. apply (f_equal String.length) in E. destruct k as [|? [|? ?]]; cbn in E; try discriminate. rewrite length_app_s in E. cbn in E. lia.
  - injection E as -> E. f_equal. auto.
Qed.
(* the printed text gives the lines away, if no line break is printed within a line and no > on the left of it *)
Theorem C86_text : forall name show cls g doms cards v f1 f2 force1 force2 k1 k2 t1 t2, In v (nodes g) ->
  init_table g doms cards v f1 force1 k1 = Ok t1 -> init_table g doms cards v f2 force2 k2 = Ok t2 -> written_apart name doms (parents g v) ->
  (forall pv, context_of doms (parents g v) pv -> without 10 (name pv) /\ without 62 (name pv)) -> (forall s s', may_show doms (parents g v) f1 s -> may_show doms (parents g v) f2 s' -> show s = show s' -> s = s') ->
  (forall s, may_show doms (parents g v) f1 s \/ may_show doms (parents g v) f2 s -> without 10 (show s)) ->
  answers doms (parents g v) f1 -> answers doms (parents g v) f2 -> adds_up t1 -> adds_up t2 -> tdom t1 = tdom t2 ->
  exists text1 text2, repr_text name show cls g doms v f1 = Ok text1 /\ repr_text name show cls g doms v f2 = Ok text2 /\ (text1 = text2 -> tcols t1 = tcols t2).
Proof.
  intros name show cls g doms cards v f1 f2 force1 force2 k1 k2 t1 t2 Hv H1 H2 Wa Wn Sh Ws A1 A2 S1 S2 Ed.
  destruct (C86_lines name g doms cards v f1 force1 k1 t1 Hv H1 Wa) as (ls1 & E1 & _ & _ & K1 & L1). destruct (C86_lines name g doms cards v f2 force2 k2 t2 Hv H2 Wa) as (ls2 & E2 & _ & _ & K2 & L2).
  unfold repr_text. rewrite E1, E2. cbn [bind]. do 2 eexists. split; [reflexivity|]. split; [reflexivity|]. intro E. do 5 apply app_inv in E.
  assert (M : forall f ls l, (forall k, In k (keys ls) <-> exists pv, context_of doms (parents g v) pv /\ k = name pv) -> (forall pv s, context_of doms (parents g v) pv -> In (name pv, s) ls -> exists w, call f pv = Ok w /\ fits (dist_of w) s) -> In l ls -> may_show doms (parents g v) f (snd l)).
  { intros f ls [k s] K L Hl. assert (Hk := in_map fst _ _ Hl). apply K in Hk. destruct Hk as (pv & C & Ek). cbn in Ek. subst k. destruct (L pv s C Hl) as (w & W & Ft). exists pv, w. auto. }
  assert (Wl : forall ls, (forall l, In l ls -> without 10 (show (snd l))) -> (forall k, In k (keys ls) <-> exists pv, context_of doms (parents g v) pv /\ k = name pv) -> Forall (fun l => without 10 l /\ l <> ""%string) (map (line_text show) ls) /\ forall l, In l ls -> without 62 (fst l)).
  { intros ls Wls K. assert (Kl : forall l, In l ls -> without 10 (fst l) /\ without 62 (fst l)) by (intros l Hl; apply (in_map fst) in Hl; apply K in Hl; destruct Hl as (pv & C & ->); auto). split; [|intros l Hl; apply Kl; auto].
    apply Forall_forall. intros x Hx. apply in_map_iff in Hx. destruct Hx as (l & <- & Hl). unfold line_text. split; [|destruct (fst l); discriminate].
    apply without_app. split; [apply Kl; auto|]. apply without_app. split; [|apply Wls; auto]. intro Q. repeat (destruct Q as [Q|Q]; [discriminate Q|]). exact Q. }
  destruct (Wl ls1) as [F1 G1]; [intros l Hl; apply Ws; left; exact (M f1 ls1 l K1 L1 Hl)|auto|]. destruct (Wl ls2) as [F2 G2]; [intros l Hl; apply Ws; right; exact (M f2 ls2 l K2 L2 Hl)|auto|].
  assert (M1 : forall l, In l ls1 -> may_show doms (parents g v) f1 (snd l)) by (intros l Hl; exact (M f1 ls1 l K1 L1 Hl)). assert (M2 : forall l, In l ls2 -> may_show doms (parents g v) f2 (snd l)) by (intros l Hl; exact (M f2 ls2 l K2 L2 Hl)). apply (concat_inj _ _ F1 F2) in E.
  apply (C86_determines name g doms cards v f1 f2 force1 force2 k1 k2 t1 t2); auto. rewrite E1, E2. f_equal. clear - E G1 G2 M1 M2 Sh. revert ls2 G2 M2 E. induction ls1 as [|l ls1 IH]; intros [|l' ls2] G2 M2 E; try discriminate; auto.
  injection E as El E. f_equal; [apply (line_inj show); auto; [apply Sh; [apply M1; left; auto|apply M2; left; auto]|apply G1; left; auto|apply G2; left; auto]|]. apply IH; auto; intros x Hx; [apply G1|apply M1|apply G2|apply M2]; right; auto.
Qed.
Print Assumptions C86_text.

(* ---- what printing does not show ---- *)
Definition ex_pg : graph := mkG ["P"; "V"] [("P", "V")].
Definition ex_pdoms : domains := [("P", [0; 1])].
Definition ex_pcards (ps : list node) : result (list nat) := Ok (map (fun p => length (dom_of ex_pdoms p)) ps).
(* a way to write contexts *)
Definition ex_name (pv : list (node * outcome)) : string := String.concat "," (map (fun e => fst e ++ (if oeqb (snd e) 0 then "=0" else "=1"))%string pv).
(* V copies P, or is even when P is 1 *)
Definition ex_pfn (d : dist) : fn := mkFn [("P", false)] false (fun pv => match lookup "P" pv with Some x => if oeqb x 0 then Ok (VOut 0) else Ok (VDist d) | None => Err KeyError end).
Lemma ex_apart : written_apart ex_name ex_pdoms (parents ex_pg "V").
Proof.
  intros pv pv' [E1 H1] [E2 H2] K. change (parents ex_pg "V") with ["P"] in E1, E2. destruct pv as [|[p x] [|]]; try discriminate. destruct pv' as [|[p' x'] [|]]; try discriminate. injection E1 as ->. injection E2 as ->.
  destruct (H1 "P" x (or_introl eq_refl)) as (l & L & Hx). destruct (H2 "P" x' (or_introl eq_refl)) as (l' & L' & Hx'). injection L as <-. injection L' as <-. destruct Hx as [<-|[<-|[]]], Hx' as [<-|[<-|[]]]; auto; vm_compute in K; discriminate.
Qed.
Lemma ex_answers : forall d, is_dict d -> answers ex_pdoms (parents ex_pg "V") (ex_pfn d).
Proof.
  intros d D pv [E H]. change (parents ex_pg "V") with ["P"] in E. destruct pv as [|[p x] [|]]; try discriminate. injection E as ->. unfold call. cbn [binds ex_pfn]. cbn.
  destruct (oeqb x 0); eexists; split; try reflexivity; cbn; auto. unfold is_dict. cbn. repeat constructor; auto.
Qed.
(* a relationship with one certain and one uncertain context is printed with the outcome and the distribution *)
Example C86_example : exists t, init_table ex_pg ex_pdoms ex_pcards "V" (ex_pfn (bernoulli (Q2Qc (1 # 2)))) [] KStoch = Ok t /\ adds_up t /\
  repr_lines ex_name ex_pg ex_pdoms "V" (ex_pfn (bernoulli (Q2Qc (1 # 2)))) = Ok [("P=0", SOut 0); ("P=1", SDist (bernoulli (Q2Qc (1 # 2))))].
Proof.
  eexists. split; [vm_compute; reflexivity|]. split; [|vm_compute; reflexivity].
  intros col [<-|[<-|[]]]; apply Qc_is_canon; vm_compute; reflexivity.
Qed.
(* the texts of a fair and of a biased coin *)
Definition ex_show (s : shown) : string := match s with SOut x => if oeqb x 0 then "0" else "1" | SDist [(_, Some p); _] => if oeqb p (Q2Qc (1 # 2)) then "{0: 0.5, 1: 0.5}" else "{0: 0.75, 1: 0.25}" | SDist _ => "{}" end%string.
Lemma ex_may_show : forall p s, p = Q2Qc (1 # 2) \/ p = Q2Qc (1 # 4) -> may_show ex_pdoms (parents ex_pg "V") (ex_pfn (bernoulli p)) s -> s = SOut 0 \/ s = SDist (bernoulli p).
Proof.
  intros p s Hp (pv & w & [E H] & W & F). change (parents ex_pg "V") with ["P"] in E. destruct pv as [|[q x] [|]]; try discriminate. injection E as ->. unfold call in W. cbn in W. destruct (oeqb x 0); injection W as <-; destruct s as [y|d]; cbn in F.
  - left. destruct F as [F|[]]. congruence.
  - exfalso. destruct F as [_ F]. apply (F 0). left. auto.
  - exfalso. destruct Hp as [->| ->]; destruct F as [F|[F|[]]]; injection F as _ F; discriminate F.
  - right. destruct F as [-> _]. auto.
Qed.
Example C86_text_example : let f1 := ex_pfn (bernoulli (Q2Qc (1 # 2))) in let f2 := ex_pfn (bernoulli (Q2Qc (1 # 4))) in
  (forall pv, context_of ex_pdoms (parents ex_pg "V") pv -> without 10 (ex_name pv) /\ without 62 (ex_name pv)) /\
  (forall s s', may_show ex_pdoms (parents ex_pg "V") f1 s -> may_show ex_pdoms (parents ex_pg "V") f2 s' -> ex_show s = ex_show s' -> s = s') /\
  (forall s, may_show ex_pdoms (parents ex_pg "V") f1 s \/ may_show ex_pdoms (parents ex_pg "V") f2 s -> without 10 (ex_show s)) /\
  repr_text ex_name ex_show "StochasticFunctionCPD" ex_pg ex_pdoms "V" f1 = Ok ("StochasticFunctionCPD<V> " ++ newline ++ "P=0  ->  0" ++ newline ++ "P=1  ->  {0: 0.5, 1: 0.5}")%string.
Proof.
  cbv zeta. split; [|split; [|split; [|vm_compute; reflexivity]]].
  - intros pv [E H]. change (parents ex_pg "V") with ["P"] in E. destruct pv as [|[p x] [|]]; try discriminate. injection E as ->. unfold ex_name. cbn [map fst snd]. destruct (oeqb x 0); split; intro Q; repeat (destruct Q as [Q|Q]; [discriminate Q|]); exact Q.
  - intros s s' M M' E. apply ex_may_show in M; auto. apply ex_may_show in M'; auto. destruct M as [->| ->], M' as [->| ->]; auto; vm_compute in E; discriminate E.
  - intros s [M|M]; apply ex_may_show in M; auto; destruct M as [->| ->]; intro Q; vm_compute in Q; repeat (destruct Q as [Q|Q]; [discriminate Q|]); exact Q.
Qed.
(* probabilities that add up to one only within the tolerance: an outcome is shown as if it were certain *)
Theorem C86_tolerance_refuted : exists f1 f2 t1 t2, answers ex_pdoms (parents ex_pg "V") f1 /\ answers ex_pdoms (parents ex_pg "V") f2 /\
  init_table ex_pg ex_pdoms ex_pcards "V" f1 [0; 1] KStoch = Ok t1 /\ init_table ex_pg ex_pdoms ex_pcards "V" f2 [0; 1] KStoch = Ok t2 /\
  repr_lines ex_name ex_pg ex_pdoms "V" f1 = repr_lines ex_name ex_pg ex_pdoms "V" f2 /\ tdom t1 = tdom t2 /\ tcols t1 <> tcols t2.
Proof.
  exists (ex_pfn [(1, Some 1)]), (ex_pfn [(1, Some 1); (0, Some (Q2Qc (1 # 200)))]). do 2 eexists. split; [apply ex_answers; repeat constructor; auto|]. split; [apply ex_answers; repeat constructor; auto; cbn; intros [K|[]]; discriminate|].
  split; [vm_compute; reflexivity|]. split; [vm_compute; reflexivity|]. split; [vm_compute; reflexivity|]. split; [reflexivity|]. cbn [tcols]. intro K. injection K as K. discriminate.
Qed.
Print Assumptions C86_tolerance_refuted.
(* the domain is not shown *)
Theorem C86_domain_refuted : exists f1 f2 t1 t2, answers ex_pdoms (parents ex_pg "V") f1 /\ answers ex_pdoms (parents ex_pg "V") f2 /\ adds_up t1 /\ adds_up t2 /\
  init_table ex_pg ex_pdoms ex_pcards "V" f1 [] KStoch = Ok t1 /\ init_table ex_pg ex_pdoms ex_pcards "V" f2 [] KStoch = Ok t2 /\
  repr_lines ex_name ex_pg ex_pdoms "V" f1 = repr_lines ex_name ex_pg ex_pdoms "V" f2 /\ tdom t1 <> tdom t2.
Proof.
  exists (ex_pfn [(0, Some 1)]), (ex_pfn [(0, Some 1); (1, Some 0)]). do 2 eexists. split; [apply ex_answers; repeat constructor; auto|]. split; [apply ex_answers; repeat constructor; auto; cbn; intros [K|[]]; discriminate|].
  split; [|split; [|split; [vm_compute; reflexivity|split; [vm_compute; reflexivity|split; [vm_compute; reflexivity|cbn [tdom]; discriminate]]]]].
  - intros col [<-|[<-|[]]]; apply Qc_is_canon; vm_compute; reflexivity.
  - intros col [<-|[<-|[]]]; apply Qc_is_canon; vm_compute; reflexivity.
Qed.
Print Assumptions C86_domain_refuted.
