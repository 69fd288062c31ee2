(* A variable that is drawn in one of two ways, and a decision that does not respond to it. *)
From Coq Require Import String List Bool Arith QArith Qcanon Lia Permutation.
Import ListNotations.
From Verif Require Import MBase MGraph MCpd MNet MProb MQuery Spec LBase LGraph LQc LSum LBayes LQcArith LWire.
Local Open Scope string_scope.
Local Open Scope list_scope.
Local Open Scope Qc_scope.

(* K with another conditional probability for x *)
Definition swap (K : node -> asg -> Qc) (x : node) (k : asg -> Qc) (v : node) (a : asg) : Qc := if String.string_dec v x then k a else K v a.
Definition rest (ns : list node) (K : node -> asg -> Qc) (x : node) (a : asg) : Qc := weight (swap K x (fun _ => 1)) ns a.
Lemma swap_rest : forall ns K x k a, NoDup ns -> In x ns -> weight (swap K x k) ns a = k a * rest ns K x a.
Proof.
  intros ns K x k a N I. unfold rest, weight. destruct (in_split _ _ I) as (l1 & l2 & ->). apply NoDup_remove_2 in N. rewrite !map_app, !qprod_app. cbn [map]. assert (Qcons : forall p l, qprod (p :: l) = p * qprod l) by reflexivity. rewrite !Qcons.
  assert (X : forall l, ~ In x l -> qprod (map (fun v => swap K x k v a) l) = qprod (map (fun v => swap K x (fun _ => 1) v a) l)).
  { intros l Nl. apply qprod_ext. intros v Hv. unfold swap. destruct (String.string_dec v x) as [->|]; auto. contradiction. }
  rewrite (X l1), (X l2) by (intro H; apply N; apply in_or_app; auto). assert (Y : forall k', swap K x k' x a = k' a) by (intro k'; unfold swap; destruct (String.string_dec x x); [auto|congruence]). rewrite !Y. ring.
Qed.
Lemma own_rest : forall ns K x a, NoDup ns -> In x ns -> weight K ns a = K x a * rest ns K x a.
Proof.
  intros ns K x a N I. rewrite <- (swap_rest ns K x (K x) a N I). unfold weight. apply qprod_ext. intros v _. unfold swap. destruct (String.string_dec v x) as [->|]; auto.
Qed.
(* the probability that d is z, and that it is z if x is made y *)
Definition chance (g : graph) (D : node -> list outcome) (K : node -> asg -> Qc) (d : node) (z : outcome) : Qc :=
  total D (nodes g) (fun a => if Qc_eq_dec (a d) z then weight K (nodes g) a else 0) (fun _ => 0).
Definition forced (g : graph) (D : node -> list outcome) (K : node -> asg -> Qc) (x : node) (y : outcome) (d : node) (z : outcome) : Qc :=
  total D (nodes g) (fun a => if Qc_eq_dec (a d) z then (if Qc_eq_dec (a x) y then rest (nodes g) K x a else 0) else 0) (fun _ => 0).
Definition deaf (g : graph) (D : node -> list outcome) (K : node -> asg -> Qc) (x d : node) : Prop :=
  forall y z, In y (D x) -> In z (D d) -> forced g D K x y d z = chance g D K d z.
Section Mix.
  Variables (g : graph) (D : node -> list outcome) (x d : node) (K : node -> asg -> Qc) (k1 : asg -> Qc) (k0 : outcome -> Qc).
  Hypothesis W : wf_dag g.
  Hypothesis Hx : In x (nodes g).
  Hypothesis Hd : In d (nodes g).
  Hypothesis Nx : NoDup (D x).
  Hypothesis Nd : NoDup (D d).
  Hypothesis HK : forall a, K x a = half * k1 a + half * k0 (a x).
  Hypothesis S0 : qsum (map k0 (D x)) = 1.
  Let on := swap K x k1.
  Let off := swap K x (fun a => k0 (a x)).
  Lemma mix_weight : forall a, weight K (nodes g) a = half * weight on (nodes g) a + half * weight off (nodes g) a.
  Proof. intro a. unfold on, off. rewrite (own_rest _ K x a), !swap_rest by (auto; apply W). rewrite HK. ring. Qed.
  Lemma mix_total : forall f, total D (nodes g) (fun a => weight K (nodes g) a * f a) (fun _ => 0) =
    half * total D (nodes g) (fun a => weight on (nodes g) a * f a) (fun _ => 0) + half * total D (nodes g) (fun a => weight off (nodes g) a * f a) (fun _ => 0).
  Proof. intro f. rewrite <- !total_scale, <- total_plus. apply total_ext. intro a. rewrite mix_weight. ring. Qed.
  Lemma off_chance : forall z, chance g D off d z = qsum (map (fun y => k0 y * forced g D K x y d z) (D x)).
  Proof.
    intro z. unfold chance, forced. transitivity (total D (nodes g) (fun a => qsum (map (fun y => k0 y * (if Qc_eq_dec (a d) z then (if Qc_eq_dec (a x) y then rest (nodes g) K x a else 0) else 0)) (D x))) (fun _ => 0)).
    - apply total_ext_in. intros a Wa _. unfold off. rewrite swap_rest by (auto; apply W). destruct (Qc_eq_dec (a d) z) as [_|_].
      + rewrite (qsum_single _ Qc_eq_dec _ _ (a x)); auto; [destruct (Qc_eq_dec (a x) (a x)); [auto|congruence]|]. intros y Hy Ny. destruct (Qc_eq_dec (a x) y); [congruence|ring].
      + rewrite (qsum_ext _ _ (fun _ => 0)); [symmetry; apply qsum_zero|]. intros; ring.
    - rewrite total_qsum. apply qsum_ext. intros y _. rewrite total_scale. auto.
  Qed.
  Lemma mix_chance : forall z, chance g D K d z = half * chance g D on d z + half * chance g D off d z.
  Proof.
    intro z. unfold chance. rewrite <- !total_scale, <- total_plus. apply total_ext. intro a. destruct (Qc_eq_dec (a d) z); [apply mix_weight|ring].
  Qed.
  Lemma deaf_same : deaf g D K x d -> forall z, In z (D d) -> chance g D on d z = chance g D off d z.
  Proof.
    intros Df z Hz. assert (E0 : chance g D off d z = chance g D K d z).
    { rewrite off_chance. rewrite (qsum_ext _ _ (fun y => chance g D K d z * k0 y)) by (intros y Hy; rewrite (Df y z Hy Hz); ring). rewrite qsum_scale, S0. ring. }
    assert (E := mix_chance z). rewrite <- E0 in E. generalize dependent (chance g D on d z). generalize dependent (chance g D off d z). intros q0 _ q1 E. assert (Hh : half + half = 1) by (apply Qc_is_canon; reflexivity).
    transitivity ((half + half) * q1); [rewrite Hh; ring|]. transitivity ((half + half) * q0); [|rewrite Hh; ring]. replace ((half + half) * q1) with ((half * q1 + half * q0) + (half * q1 + half * q0) - (half + half) * q0) by ring. rewrite <- E. rewrite Hh. ring.
  Qed.
  Lemma chance_total : forall J (h : outcome -> Qc), total D (nodes g) (fun a => weight J (nodes g) a * h (a d)) (fun _ => 0) = qsum (map (fun z => h z * chance g D J d z) (D d)).
  Proof.
    intros J h. unfold chance. rewrite (qsum_ext _ _ (fun z => total D (nodes g) (fun a => h z * (if Qc_eq_dec (a d) z then weight J (nodes g) a else 0)) (fun _ => 0))) by (intros z _; rewrite total_scale; auto).
    rewrite <- total_qsum. apply total_ext_in. intros a Wa _. rewrite (qsum_single _ Qc_eq_dec _ _ (a d)); auto; [destruct (Qc_eq_dec (a d) (a d)); [ring|congruence]|]. intros z _ Nz. destruct (Qc_eq_dec (a d) z); [congruence|ring].
  Qed.
  Lemma deaf_total : deaf g D K x d -> forall h : outcome -> Qc, total D (nodes g) (fun a => weight on (nodes g) a * h (a d)) (fun _ => 0) = total D (nodes g) (fun a => weight off (nodes g) a * h (a d)) (fun _ => 0).
  Proof. intros Df h. rewrite !chance_total. apply qsum_ext. intros z Hz. rewrite (deaf_same Df z Hz). auto. Qed.
End Mix.
