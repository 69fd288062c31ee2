(* Lemmas: the search functions behind the labels. *)
From Coq Require Import String Ascii List Bool Arith ZArith Lia.
Import ListNotations.
From Verif Require Import MBase MLabel SpecLabel.
Local Open Scope Z_scope.

Lemma prefixb_iff : forall p s, prefixb p s = true <-> exists b, s = p ++ b.
Proof.
  induction p as [|a p IH]; intros s; cbn; [split; eauto|]. destruct s as [|c s]; [split; [discriminate|intros (b & E); discriminate]|]. rewrite andb_true_iff, Ascii.eqb_eq, IH. split.
  - intros (-> & b & ->). exists b. auto.
  - intros (b & E). injection E as -> ->. eauto.
Qed.
Lemma occurs_skip : forall p s i, occurs p s i <-> (i <= length s)%nat /\ prefixb p (skipn i s) = true.
Proof.
  intros p s i. rewrite prefixb_iff. split.
  - intros (a & b & -> & <-). split; [rewrite app_length; lia|]. exists b. rewrite skipn_app, skipn_all, Nat.sub_diag. reflexivity.
  - intros (L & b & E). exists (firstn i s), b. split; [rewrite <- E; symmetry; apply firstn_skipn|apply firstn_length_le; auto].
Qed.
Lemma skipn_S : forall (s : text) k c r, skipn k s = c :: r -> skipn (S k) s = r.
Proof. induction s as [|x s IH]; intros [|k] c r E; cbn in *; try discriminate; [injection E as _ E; auto|apply (IH k c); auto]. Qed.
Lemma find_from_spec : forall p s r k, r = skipn k s -> (k <= length s)%nat ->
  match find_from p r k with Some i => first_from p s k i | None => forall j, (k <= j)%nat -> ~ occurs p s j end.
Proof.
  intros p s r. induction r as [|c r IH]; intros k E L; cbn [find_from].
  - destruct (prefixb p []) eqn:P.
    + split; auto. split; [apply occurs_skip; rewrite <- E; auto|intros; auto].
    + intros j Lj O. apply occurs_skip in O. destruct O as [L' O]. assert (K : (length s <= k)%nat) by (assert (X := f_equal (@length ascii) E); rewrite skipn_length in X; cbn in X; lia). assert (j = k) by lia. subst j. rewrite <- E in O. congruence.
  - destruct (prefixb p (c :: r)) eqn:P.
    + split; auto. split; [apply occurs_skip; rewrite <- E; auto|intros; auto].
    + assert (K : (S k <= length s)%nat) by (assert (X := f_equal (@length ascii) E); rewrite skipn_length in X; cbn in X; lia). symmetry in E. specialize (IH (S k) (eq_sym (skipn_S s k c r E)) K).
      assert (N : ~ occurs p s k) by (intro O; apply occurs_skip in O; rewrite E in O; destruct O; congruence). destruct (find_from p r (S k)) as [i|].
      * destruct IH as (I1 & I2 & I3). split; [lia|]. split; auto. intros j Lj O. destruct (Nat.eq_dec j k) as [->|]; [contradiction|]. apply I3; auto. lia.
      * intros j Lj O. destruct (Nat.eq_dec j k) as [->|]; [contradiction|]. apply (IH j); auto. lia.
Qed.
Lemma first_unique : forall p s k i j, first_from p s k i -> first_from p s k j -> i = j.
Proof. intros p s k i j (A1 & A2 & A3) (B1 & B2 & B3). apply Nat.le_antisymm; auto. Qed.
Lemma occurs_le : forall p s i, occurs p s i -> (i + length p <= length s)%nat.
Proof. intros p s i (a & b & -> & <-). rewrite !app_length. lia. Qed.
(* from a position in the text *)
Lemma py_find_at : forall p s k i, first_from p s k i -> py_find p s (Z.of_nat k) = Z.of_nat i.
Proof.
  intros p s k i F. unfold py_find, place. replace (Z.of_nat k <? 0) with false by (symmetry; apply Z.ltb_ge; lia). rewrite Nat2Z.id.
  assert (L : (k <= length s)%nat) by (destruct F as (F1 & F2 & _); apply occurs_le in F2; lia). replace (length s <? k)%nat with false by (symmetry; apply Nat.ltb_ge; auto).
  assert (X := find_from_spec p s _ k eq_refl L). destruct (find_from p (skipn k s) k) as [j|]; [f_equal; eapply first_unique; eauto|]. exfalso. apply (X i); apply F.
Qed.
Lemma py_find_range : forall p s z, let r := py_find p s z in r = -1 \/ exists i, r = Z.of_nat i /\ occurs p s i.
Proof.
  intros p s z. unfold py_find. destruct (Nat.ltb_spec (length s) (place s z)) as [|L]; [auto|]. assert (X := find_from_spec p s _ _ eq_refl L). destruct (find_from p (skipn (place s z) s) (place s z)) as [i|]; [right; exists i; split; auto; apply X|left; auto].
Qed.
Lemma py_index_at : forall s k, py_index s (Z.of_nat k) = match nth_error s k with Some c => Ok c | None => Err IndexError end.
Proof. intros s k. unfold py_index, place, len. replace (Z.of_nat k <? - Z.of_nat (length s)) with false by (symmetry; apply Z.ltb_ge; lia). replace (Z.of_nat k <? 0) with false by (symmetry; apply Z.ltb_ge; lia). rewrite Nat2Z.id. reflexivity. Qed.
Lemma py_slice_at : forall s a b, py_slice s (Z.of_nat a) (Z.of_nat b) = firstn (b - a) (skipn a s).
Proof. intros s a b. unfold py_slice, place. replace (Z.of_nat a <? 0) with false by (symmetry; apply Z.ltb_ge; lia). replace (Z.of_nat b <? 0) with false by (symmetry; apply Z.ltb_ge; lia). rewrite !Nat2Z.id. reflexivity. Qed.
Lemma zrange_cons : forall lo hi, lo < hi -> zrange lo hi = lo :: zrange (lo + 1) hi.
Proof.
  intros lo hi L. unfold zrange. replace (Z.to_nat (hi - lo)) with (S (Z.to_nat (hi - (lo + 1)))) by lia. cbn [seq map]. f_equal; [lia|]. rewrite <- seq_shift, map_map. apply map_ext. intro k. lia.
Qed.
Lemma zrange_nil : forall lo hi, hi <= lo -> zrange lo hi = [].
Proof. intros lo hi L. unfold zrange. replace (Z.to_nat (hi - lo)) with 0%nat by lia. reflexivity. Qed.

(* where the loop stops *)
Fixpoint stop (r : text) (d : Z) : option nat :=
  match r with
  | [] => None
  | c :: r' => let d' := if opening c then d + 1 else if closing c then d - 1 else d in
      if ((d' =? 0) && Ascii.eqb c comma) || (d' =? -1) then Some 0%nat else option_map S (stop r' d')
  end.
Lemma scan_stop : forall s colon r p d, r = skipn p s -> (p <= length s)%nat ->
  scan s colon (zrange (Z.of_nat p) (len s)) d = Ok (py_slice s (colon + 2) (match stop r d with Some k => Z.of_nat (p + k) | None => len s end)).
Proof.
  intros s colon r. induction r as [|c r IH]; intros p d E L.
  - rewrite zrange_nil by (assert (X := f_equal (@length ascii) E); rewrite skipn_length in X; cbn in X; unfold len; lia). reflexivity.
  - assert (K : (S p <= length s)%nat) by (assert (X := f_equal (@length ascii) E); rewrite skipn_length in X; cbn in X; lia). symmetry in E. rewrite zrange_cons by (unfold len; lia). cbn [scan]. rewrite py_index_at.
    assert (Nc : nth_error s p = Some c) by (clear - E; revert p E; induction s as [|x s IH]; intros [|p] E; cbn in *; try discriminate; [congruence|auto]). rewrite Nc. cbn [bind stop]. set (d' := if opening c then d + 1 else if closing c then d - 1 else d).
    destruct (((d' =? 0) && Ascii.eqb c comma) || (d' =? -1)); [rewrite Nat.add_0_r; reflexivity|].
    replace (Z.of_nat p + 1) with (Z.of_nat (S p)) by lia. rewrite (IH (S p) d' (eq_sym (skipn_S s p c r E)) K). destruct (stop r d') as [k|]; cbn [option_map]; [rewrite Nat.add_succ_r|]; reflexivity.
Qed.
Lemma opening_iff : forall c, opening c = true <-> opens c.
Proof. intro c. unfold opening, str, opens. cbn [list_ascii_of_string existsb]. rewrite !orb_true_iff, !Ascii.eqb_eq. split; [intros [K|[K|[K|K]]]; auto; discriminate|intros [K|[K|K]]; auto]. Qed.
Lemma closing_iff : forall c, closing c = true <-> closes c.
Proof. intro c. unfold closing, str, closes. cbn [list_ascii_of_string existsb]. rewrite !orb_true_iff, !Ascii.eqb_eq. split; [intros [K|[K|[K|K]]]; auto; discriminate|intros [K|[K|K]]; auto]. Qed.
Lemma opens_comma : ~ opens comma.
Proof. intros [K|[K|K]]; discriminate K. Qed.
Lemma closes_comma : ~ closes comma.
Proof. intros [K|[K|K]]; discriminate K. Qed.
Lemma closes_opens : forall c, closes c -> ~ opens c.
Proof. intros c [->|[->| ->]] [K|[K|K]]; discriminate K. Qed.
Lemma bool_no : forall b, b <> true -> b = false.
Proof. intros []; congruence. Qed.
(* the loop passes over an expression *)
Lemma stop_expression : forall free e, expression free e -> forall r d, 0 <= d -> (free = true -> 1 <= d) -> stop (e ++ r) d = option_map (fun k => (length e + k)%nat) (stop r d).
Proof.
  intros free e H. induction H as [free|free c s No Nc Cm Hs IH|free o inner c s Ho Hc Hi IHi Hs IHs]; intros r d D0 D1.
  - cbn. destruct (stop r d); reflexivity.
  - cbn [app stop length]. rewrite (bool_no (opening c)) by (rewrite opening_iff; auto). rewrite (bool_no (closing c)) by (rewrite closing_iff; auto).
    assert (X : ((d =? 0) && Ascii.eqb c comma) || (d =? -1) = false).
    { apply orb_false_iff. split; [|apply Z.eqb_neq; lia]. apply andb_false_iff. destruct (Ascii.eqb c comma) eqn:Ec; [|auto]. left. apply Ascii.eqb_eq in Ec. apply Z.eqb_neq. specialize (D1 (Cm Ec)). lia. }
    rewrite X, IH by auto. destruct (stop r d); reflexivity.
  - cbn [app stop length]. rewrite (proj2 (opening_iff o) Ho).
    assert (X : ((d + 1 =? 0) && Ascii.eqb o comma) || (d + 1 =? -1) = false) by (apply orb_false_iff; split; [apply andb_false_iff; left|]; apply Z.eqb_neq; lia).
    rewrite X, <- app_assoc. rewrite IHi by lia. cbn [app stop]. rewrite (bool_no (opening c)) by (rewrite opening_iff; apply closes_opens; auto). rewrite (proj2 (closing_iff c) Hc).
    assert (Y : ((d + 1 - 1 =? 0) && Ascii.eqb c comma) || (d + 1 - 1 =? -1) = false).
    { apply orb_false_iff. split; [|apply Z.eqb_neq; lia]. apply andb_false_iff. right. apply bool_no. intro K. apply Ascii.eqb_eq in K. subst c. apply (closes_comma Hc). }
    rewrite Y. replace (d + 1 - 1) with d by lia. rewrite IHs by auto. destruct (stop r d) as [k|]; [|reflexivity]. cbn [option_map]. f_equal. rewrite app_length. cbn [length]. lia.
Qed.
