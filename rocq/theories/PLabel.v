(* Properties of the text that describes a relationship in a drawing. *)
From Coq Require Import String Ascii List Bool Arith ZArith Lia.
Import ListNotations.
From Verif Require Import MBase MLabel SpecLabel LLabel.
Local Open Scope Z_scope.

Lemma scan_total : forall s colon is d, (forall i, In i is -> - len s <= i < len s) -> exists t, scan s colon is d = Ok t.
Proof.
  intros s colon is. induction is as [|i is IH]; intros d H; cbn [scan]; [eauto|]. destruct (H i (or_introl eq_refl)) as [L1 L2].
  assert (X : exists c, py_index s i = Ok c).
  { unfold py_index. replace (i <? - len s) with false by (symmetry; apply Z.ltb_ge; lia). destruct (nth_error s (place s i)) as [c|] eqn:E; [eauto|]. exfalso. apply nth_error_None in E. unfold place, len in *. destruct (Z.ltb_spec i 0); lia. }
  destruct X as [c ->]. cbn [bind]. match goal with |- context [if ?b then Ok _ else _] => destruct b end; [eauto|]. apply IH. intros j K. apply H. right. auto.
Qed.
(* ---- C85 ---- *)
(* A label given by the caller and the name of a named function are used as they are. *)
Theorem C85_given : forall l variable f, cpd_label (Some l) variable f = Ok l.
Proof. reflexivity. Qed.
Print Assumptions C85_given.
Theorem C85_named : forall nm variable src, nm <> str "<lambda>" -> cpd_label None variable (mkCallable (Some nm) src) = Ok nm.
Proof.
  intros nm variable src N. unfold cpd_label, compute_label. cbn [c_name c_source]. destruct (text_eqb nm (str "<lambda>")) eqn:E; [|reflexivity]. exfalso. apply N. unfold text_eqb in E. apply andb_true_iff in E. destruct E as [E1 E2]. apply prefixb_iff in E1. apply prefixb_iff in E2.
  destruct E1 as [b E1]. destruct E2 as [b' E2]. assert (L := f_equal (@length ascii) E1). assert (L' := f_equal (@length ascii) E2). rewrite app_length in L, L'. destruct b'; [rewrite app_nil_r in E2; auto|cbn [length] in L'; lia].
Qed.
Print Assumptions C85_named.
(* A distribution that is given as a dictionary is labelled by the given label, unless that is missing or empty, and else by the dictionary. *)
Theorem C85_constant : forall label shown variable f,
  (forall l, label = Some l -> l <> [] -> constant_label label shown variable f = Ok l) /\ (label = None \/ label = Some [] -> constant_label label shown variable f = Ok shown).
Proof. intros label shown variable f. split; [intros [|c l] -> N; [congruence|reflexivity]|intros [->| ->]; reflexivity]. Qed.
Print Assumptions C85_constant.
(* Whatever the first line of the source of a function looks like, and whether or not it can be found, working out the label raises nothing. *)
Theorem C85_no_error : forall label variable f, c_source f <> NotCode -> exists t, cpd_label label variable f = Ok t.
Proof.
  intros [l|] variable [nm src] N; [eexists; reflexivity|]. unfold cpd_label, compute_label. cbn [c_name c_source] in *. destruct (match nm with Some x => if text_eqb x (str "<lambda>") then None else Some x | None => None end); [eauto|]. destruct src as [sl| |]; [|eauto|congruence].
  unfold label_in. destruct (Z.ltb_spec (-1) (py_find (str "lambda") sl (py_find variable sl 0))) as [L|L]; [|eauto]. apply scan_total.
  assert (Pos : (6 <= length sl)%nat). { destruct (py_find_range (str "lambda") sl (py_find variable sl 0)) as [E|(i & _ & O)]; [rewrite E in L; lia|]. apply occurs_le in O. cbn [str list_ascii_of_string length] in O. lia. }
  intros i K. unfold zrange in K. apply in_map_iff in K. destruct K as (k & <- & K). apply in_seq in K. unfold len in *.
  destruct (py_find_range (str ":") sl (py_find (str "lambda") sl (py_find variable sl 0))) as [E|(j & E & _)]; rewrite E in *; lia.
Qed.
Print Assumptions C85_no_error.

(* the colon that ends the arguments *)
Lemma colon_first : forall pre args r, ~ In ":"%char args -> first_from (str ":") (pre ++ str "lambda" ++ args ++ ":"%char :: r) (length pre) (length pre + 6 + length args).
Proof.
  intros pre args r N. split; [lia|]. split.
  - exists (pre ++ str "lambda" ++ args), r. split; [rewrite <- !app_assoc; reflexivity|]. rewrite !app_length. cbn [str list_ascii_of_string length]. lia.
  - intros j Lj O. destruct (le_lt_dec (length pre + 6 + length args) j) as [|Lt]; auto. exfalso. destruct O as (u & w & E & <-).
    assert (Nt : nth_error (pre ++ str "lambda" ++ args ++ ":"%char :: r) (length u) = Some ":"%char) by (rewrite E, nth_error_app2, Nat.sub_diag by lia; reflexivity).
    rewrite nth_error_app2 in Nt by lia. set (i := (length u - length pre)%nat) in *. destruct (le_lt_dec 6 i) as [Hi|Hi].
    + rewrite nth_error_app2 in Nt by (cbn; lia). cbn [str list_ascii_of_string length] in Nt. rewrite nth_error_app1 in Nt by lia. apply N. eapply nth_error_In. exact Nt.
    + rewrite nth_error_app1 in Nt by (cbn; lia). do 6 (destruct i as [|i]; [discriminate Nt|]). lia.
Qed.
(* what the search finds once the lambda has been found *)
Lemma label_after : forall variable pre args x r v, let line := pre ++ str "lambda" ++ args ++ ":"%char :: x :: r in
  first_from variable line 0 v -> first_from (str "lambda") line v (length pre) -> ~ In ":"%char args -> x = " "%char ->
  label_in variable line = Ok (match stop r 0 with Some k => firstn k r | None => r end).
Proof.
  intros variable pre args x r v line Fv Fl N ->. unfold label_in; cbv zeta. assert (E1 : py_find variable line 0 = Z.of_nat v) by exact (py_find_at variable line 0 v Fv). rewrite E1. rewrite (py_find_at (str "lambda") line v (length pre) Fl).
  replace (-1 <? Z.of_nat (length pre)) with true by (symmetry; apply Z.ltb_lt; lia). set (p := (length pre + 6 + length args)%nat).
  rewrite (py_find_at (str ":") line (length pre) p (colon_first pre args _ N)).
  set (h := pre ++ str "lambda" ++ args). assert (Eh : line = h ++ ":"%char :: " "%char :: r) by (unfold h, line; rewrite <- !app_assoc; reflexivity). assert (Lh : length h = p) by (unfold h, p; rewrite !app_length; cbn [str list_ascii_of_string length]; lia).
  assert (Ll : length line = (p + S (S (length r)))%nat) by (rewrite Eh, app_length, Lh; reflexivity).
  assert (Sk : skipn p line = ":"%char :: " "%char :: r) by (rewrite Eh, skipn_app, <- Lh, skipn_all, Nat.sub_diag; reflexivity).
  rewrite (scan_stop line _ _ p 0 (eq_sym Sk)) by lia. f_equal.
  assert (Sk2 : skipn (p + 2) line = r) by (rewrite Eh, skipn_app, <- Lh, skipn_all2 by lia; replace (length h + 2 - length h)%nat with 2%nat by lia; reflexivity).
  assert (St : stop (":"%char :: " "%char :: r) 0 = option_map (fun k => S (S k)) (stop r 0)) by (cbn; destruct (stop r 0); reflexivity). rewrite St.
  replace (Z.of_nat p + 2) with (Z.of_nat (p + 2)) by lia. destruct (stop r 0) as [k|]; cbn [option_map].
  - rewrite py_slice_at, Sk2. f_equal. lia.
  - unfold len. rewrite py_slice_at, Sk2. apply firstn_all2. lia.
Qed.
(* The label of a lambda is the text of its body: from the space after the colon to the first comma or closing bracket that is not part of it, or
   to the end of the line, provided that it is the first lambda after the first mention of the variable's name in the line. *)
Theorem C85_body : forall variable src pre args body t rest v, let line := pre ++ str "lambda" ++ args ++ str ": " ++ body ++ t :: rest in
  src = Line line -> first_from variable line 0 v -> first_from (str "lambda") line v (length pre) -> ~ In ":"%char args ->
  expression false body -> t = ","%char \/ closes t ->
  cpd_label None variable (mkCallable (Some (str "<lambda>")) src) = Ok body.
Proof.
  intros variable src pre args body t rest v line -> Fv Fl N Eb Ht. change (label_in variable line = Ok body).
  eapply eq_trans; [exact (label_after variable pre args " "%char (body ++ t :: rest) v Fv Fl N eq_refl)|]. rewrite (stop_expression false body Eb) by (lia || discriminate).
  assert (X : stop (t :: rest) 0 = Some 0%nat).
  { cbn [stop]. destruct Ht as [->|Ht]; [reflexivity|]. rewrite (bool_no (opening t)) by (rewrite opening_iff; apply closes_opens; auto). rewrite (proj2 (closing_iff t) Ht). rewrite orb_true_r. reflexivity. }
  rewrite X. cbn [option_map]. rewrite Nat.add_0_r, firstn_app, Nat.sub_diag, firstn_all. cbn [firstn]. rewrite app_nil_r. reflexivity.
Qed.
Print Assumptions C85_body.
Theorem C85_to_the_end : forall variable src pre args body v, let line := pre ++ str "lambda" ++ args ++ str ": " ++ body in
  src = Line line -> first_from variable line 0 v -> first_from (str "lambda") line v (length pre) -> ~ In ":"%char args -> expression false body ->
  cpd_label None variable (mkCallable (Some (str "<lambda>")) src) = Ok body.
Proof.
  intros variable src pre args body v line -> Fv Fl N Eb. change (label_in variable line = Ok body).
  eapply eq_trans; [exact (label_after variable pre args " "%char body v Fv Fl N eq_refl)|]. assert (X := stop_expression false body Eb [] 0 (Z.le_refl 0) ltac:(discriminate)). rewrite app_nil_r in X. rewrite X. reflexivity.
Qed.
Print Assumptions C85_to_the_end.
(* If the line does not mention the variable, the label is empty. *)
Theorem C85_unmentioned : forall variable line, (forall i, ~ occurs variable line i) -> cpd_label None variable (mkCallable (Some (str "<lambda>")) (Line line)) = Ok [].
Proof.
  intros variable line N. change (label_in variable line = Ok []). unfold label_in. destruct (py_find_range variable line 0) as [E|(i & _ & O)]; [|exfalso; apply (N i O)]. rewrite E.
  assert (X : py_find (str "lambda") line (-1) = -1).
  { destruct line as [|c line]; [reflexivity|]. unfold py_find, place. replace (-1 <? 0) with true by reflexivity. set (k := Z.to_nat (len (c :: line) + -1)). destruct (length (c :: line) <? k)%nat; [reflexivity|].
    assert (Lk : (k <= length (c :: line))%nat) by (unfold k, len; lia). assert (F := find_from_spec (str "lambda") (c :: line) _ k eq_refl Lk). destruct (find_from (str "lambda") (skipn k (c :: line)) k) as [i|]; [|reflexivity].
    exfalso. destruct F as (F1 & F2 & _). apply occurs_le in F2. unfold k, len in F1. cbn [str list_ascii_of_string length] in *. lia. }
  rewrite X. reflexivity.
Qed.
Print Assumptions C85_unmentioned.
(* The label can be that of another variable's relationship: the name d is looked for anywhere in the line. *)
Theorem C85_confused_refuted : exists variable pre args body rest, let line := pre ++ variable ++ str "=lambda" ++ args ++ str ": " ++ body ++ rest in
  expression false body /\ cpd_label None variable (mkCallable (Some (str "<lambda>")) (Line line)) = Ok (str "1") /\ body = str "2".
Proof.
  exists (str "d"), (str "m.add_cpds(a=lambda: 1, "), (str " a"), (str "2"), (str ")"). cbn zeta. split; [|split; [vm_compute; reflexivity|reflexivity]].
  constructor; [intros [K|[K|K]]; discriminate K|intros [K|[K|K]]; discriminate K|discriminate|constructor].
Qed.
Print Assumptions C85_confused_refuted.
(* Without a space after the colon the first character of the body is lost. *)
Theorem C85_space_refuted : cpd_label None (str "D") (mkCallable (Some (str "<lambda>")) (Line (str "m.add_cpds(D=lambda x:x+1)"))) = Ok (str "+1").
Proof. vm_compute. reflexivity. Qed.
Print Assumptions C85_space_refuted.
(* A relationship that can be called but is not a function, and has no name, raises TypeError. *)
Theorem C85_object_refuted : forall variable, cpd_label None variable (mkCallable None NotCode) = Err TypeError.
Proof. reflexivity. Qed.
Print Assumptions C85_object_refuted.

Example C85_example : let line := str "    m.add_cpds(D1=lambda: {0: 0.5, 1: 0.5}, U=lambda D1, S: max(D1, S[0]), V=lambda: 0)" in
  exists pre args body rest v, line = pre ++ str "lambda" ++ args ++ str ": " ++ body ++ ","%char :: rest /\ first_from (str "U") line 0 v /\ first_from (str "lambda") line v (length pre) /\
  ~ In ":"%char args /\ expression false body /\ body = str "max(D1, S[0])".
Proof.
  cbn zeta. set (line := str "    m.add_cpds(D1=lambda: {0: 0.5, 1: 0.5}, U=lambda D1, S: max(D1, S[0]), V=lambda: 0)").
  exists (str "    m.add_cpds(D1=lambda: {0: 0.5, 1: 0.5}, U="), (str " D1, S"), (str "max(D1, S[0])"), (str " V=lambda: 0)"), 44%nat. split; [reflexivity|].
  assert (F : forall p k i, find_from p (skipn k line) k = Some i -> (k <= length line)%nat -> first_from p line k i) by (intros p k i E L; assert (X := find_from_spec p line _ k eq_refl L); rewrite E in X; exact X).
  split; [apply F; [vm_compute; reflexivity|vm_compute; lia]|]. split; [apply F; [vm_compute; reflexivity|vm_compute; lia]|].
  split; [intro K; repeat (destruct K as [K|K]; [discriminate K|]); exact K|]. split; [|reflexivity].
  assert (C : forall free c s, opening c = false -> closing c = false -> (c = ","%char -> free = true) -> expression free s -> expression free (c :: s)).
  { intros free c s E1 E2 E3 E4. apply e_char; auto; [rewrite <- opening_iff, E1; discriminate|rewrite <- closing_iff, E2; discriminate]. }
  do 3 (apply C; [reflexivity|reflexivity|discriminate|]). apply (e_group false "("%char (str "D1, S[0]") ")"%char []); [left; reflexivity|left; reflexivity| |constructor].
  do 5 (apply C; [reflexivity|reflexivity|reflexivity|]). apply (e_group true "["%char (str "0") "]"%char []); [right; left; reflexivity|right; left; reflexivity| |constructor]. apply C; [reflexivity|reflexivity|reflexivity|constructor].
Qed.

(* ---- copies ---- *)
(* A copy of a relationship given by a named function is labelled by the name, so a label given by the caller is lost unless it is that name. *)
Theorem C85_copy : forall l nm variable src, nm <> str "<lambda>" -> cpd_label (Some l) variable (mkCallable (Some nm) src) = Ok l /\
  (copy_label variable (mkCallable (Some nm) src) = cpd_label (Some l) variable (mkCallable (Some nm) src) <-> l = nm).
Proof.
  intros l nm variable src N. split; [reflexivity|]. unfold copy_label. rewrite (C85_named nm variable src N). cbn. split; congruence.
Qed.
Print Assumptions C85_copy.
(* cpd.py 230, where the function of every dictionary is defined *)
Definition line_230 : text := str "        super().__init__(variable, lambda **pv: dictionary, cbn, domain=domain, label=label or str(dictionary))
".
(* A copy of a relationship given as a dictionary is labelled by that line: the label is empty or the word dictionary, whatever the dictionary and the label were. *)
Theorem C85_copy_dictionary : forall variable, copy_label variable (mkCallable (Some (str "<lambda>")) (Line line_230)) = Ok [] \/
  copy_label variable (mkCallable (Some (str "<lambda>")) (Line line_230)) = Ok (str "dictionary").
Proof.
  intro variable. set (F := fun z => if -1 <? py_find (str "lambda") line_230 z then let colon := py_find (str ":") line_230 (py_find (str "lambda") line_230 z) in scan line_230 colon (zrange colon (len line_230)) 0 else Ok []).
  set (fine := fun r : result text => match r with Ok t => if list_eq_dec ascii_dec t [] then true else if list_eq_dec ascii_dec t (str "dictionary") then true else false | Err _ => false end).
  change (copy_label variable (mkCallable (Some (str "<lambda>")) (Line line_230))) with (F (py_find variable line_230 0)).
  assert (A : forallb (fun z => fine (F z)) (-1 :: map Z.of_nat (seq 0 (S (length line_230)))) = true) by (vm_compute; reflexivity).
  assert (I : In (py_find variable line_230 0) (-1 :: map Z.of_nat (seq 0 (S (length line_230))))).
  { destruct (py_find_range variable line_230 0) as [E|(i & E & O)]; rewrite E; [left; auto|]. right. apply in_map, in_seq. apply occurs_le in O. lia. }
  rewrite forallb_forall in A. specialize (A _ I). unfold fine in A. destruct (F (py_find variable line_230 0)) as [t|e]; [|discriminate].
  destruct (list_eq_dec ascii_dec t []) as [->|]; [left; auto|]. destruct (list_eq_dec ascii_dec t (str "dictionary")) as [->|]; [right; auto|discriminate].
Qed.
Print Assumptions C85_copy_dictionary.
Example C85_copy_example : copy_label (str "d") (mkCallable (Some (str "<lambda>")) (Line line_230)) = Ok [] /\ copy_label (str "X1") (mkCallable (Some (str "<lambda>")) (Line line_230)) = Ok [] /\
  copy_label (str "i") (mkCallable (Some (str "<lambda>")) (Line line_230)) = Ok (str "dictionary") /\ copy_label (str "prior") (mkCallable (Some (str "f")) NoSource) = Ok (str "f").
Proof. vm_compute. auto. Qed.
