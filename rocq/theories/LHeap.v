(* Role lists as shared objects: without sharing, calls on one diagram act as on values and
   leave all other lists alone. *)
From Coq Require Import String List Bool Arith Permutation Lia.
Import ListNotations.
From Verif Require Import MBase MGraph MMacid Spec SpecM LBase LGraph LRoles.

Definition locs (d : diagram) : list loc := map snd (d_ad d) ++ map snd (d_au d).
(* the diagram's lists are distinct objects *)
Definition own_lists (h : heap) (d : diagram) : Prop :=
  NoDup (locs d) /\ forall p, In p (locs d) -> p < length h.

Lemma length_hset : forall h p l, length (hset h p l) = length h.
Proof. induction h as [|x h IH]; intros [|p] l; simpl; auto. Qed.
Lemma hget_hset : forall h p l q, p < length h -> hget (hset h p l) q = if Nat.eqb q p then l else hget h q.
Proof.
  unfold hget. induction h as [|x h IH]; intros p l q H; simpl in *; [lia|].
  destruct p as [|p], q as [|q]; simpl; auto. apply IH. lia.
Qed.
Lemma hget_app : forall h l q, q < length h -> hget (h ++ [l]) q = hget h q.
Proof. intros. unfold hget. apply app_nth1; auto. Qed.
Lemma hget_last : forall h l, hget (h ++ [l]) (length h) = l.
Proof. intros. unfold hget. rewrite app_nth2, Nat.sub_diag; auto. Qed.

Lemma lookup_view : forall h d a, lookup a (view_lists h d) = option_map (hget h) (lookup a d).
Proof.
  intros h d a. induction d as [|[b p] d IH]; simpl; auto. destruct (String.eqb a b); auto.
Qed.
Lemma view_ext : forall h h' d, (forall p, In p (map snd d) -> hget h' p = hget h p) ->
  view_lists h' d = view_lists h d.
Proof.
  intros h h' d H. unfold view_lists. apply map_ext_in. intros [a p] Hi. simpl. f_equal.
  apply H. apply in_map_iff. exists (a, p); auto.
Qed.
Lemma lookup_loc : forall (d : list (agent * loc)) a p, lookup a d = Some p -> In p (map snd d).
Proof. intros d a p H. apply lookup_In in H. apply in_map_iff. exists (a, p); auto. Qed.
Lemma view_hset : forall h (d : list (agent * loc)) a p l, NoDup (map snd d) -> lookup a d = Some p -> p < length h ->
  view_lists (hset h p l) d = dset a l (view_lists h d).
Proof.
  intros h d a p l. induction d as [|[b q] d IH]; simpl; intros Hn E Hp; [discriminate|].
  inversion Hn; subst. destruct (String.eqb_spec a b).
  - inversion E; subst. rewrite hget_hset, Nat.eqb_refl by auto. f_equal. apply view_ext.
    intros x Hx. rewrite hget_hset by auto. destruct (Nat.eqb_spec x p); auto. subst; contradiction.
  - f_equal.
    + rewrite hget_hset by auto. destruct (Nat.eqb_spec q p); auto. subst. exfalso. apply H1. eapply lookup_loc; eauto.
    + apply IH; auto.
Qed.
Lemma view_fresh : forall h (d : list (agent * loc)) a l, (forall p, In p (map snd d) -> p < length h) -> lookup a d = None ->
  view_lists (h ++ [l]) (dset a (length h) d) = dset a l (view_lists h d).
Proof.
  intros h d a l. induction d as [|[b q] d IH]; simpl; intros Hb E.
  - rewrite hget_last. auto.
  - destruct (String.eqb_spec a b); [discriminate|]. simpl. f_equal.
    + rewrite hget_app; auto.
    + apply IH; auto.
Qed.
Lemma snd_dset_fresh : forall (d : list (agent * loc)) a p, lookup a d = None -> map snd (dset a p d) = map snd d ++ [p].
Proof.
  intros d a p. induction d as [|[b q] d IH]; simpl; intro E; auto.
  destruct (String.eqb a b); [discriminate|]. simpl. f_equal. auto.
Qed.

(* the frame of a call: lists that are not the diagram's own are untouched *)
Definition frame (h h' : heap) (d d' : diagram) : Prop :=
  length h <= length h' /\
  (forall p, p < length h -> ~ In p (locs d) -> hget h' p = hget h p) /\
  (forall p, In p (locs d') -> In p (locs d) \/ length h <= p).
Lemma frame_trans : forall h1 h2 h3 d1 d2 d3, frame h1 h2 d1 d2 -> frame h2 h3 d2 d3 -> frame h1 h3 d1 d3.
Proof.
  intros h1 h2 h3 d1 d2 d3 (A1 & A2 & A3) (B1 & B2 & B3). split; [lia|]. split.
  - intros p Hp Hn. rewrite B2; [apply A2; auto|lia|]. intro Hi. apply A3 in Hi. destruct Hi; [auto|lia].
  - intros p Hp. apply B3 in Hp. destruct Hp as [Hp|Hp]; [apply A3 in Hp; auto|right; lia].
Qed.
Lemma own_sides : forall h d, own_lists h d ->
  NoDup (map snd (d_ad d)) /\ NoDup (map snd (d_au d)) /\
  (forall p, In p (map snd (d_ad d)) -> ~ In p (map snd (d_au d))) /\
  (forall p, In p (map snd (d_ad d)) -> p < length h) /\ (forall p, In p (map snd (d_au d)) -> p < length h).
Proof.
  intros h d [H1 H2]. unfold locs in *. apply NoDup_app_inv in H1. destruct H1 as (A & B & C).
  repeat split; auto; intros p Hp; apply H2; apply in_or_app; auto.
Qed.

Lemma h_make_chance_spec : forall h d n h' d' e, own_lists h d -> h_make_chance h d n = (h', d', e) ->
  make_chance (view h d) n = (view h' d', e) /\ own_lists h' d' /\ frame h h' d d' /\
  locs d' = locs d /\ length h' = length h.
Proof.
  intros h d n h' d' e Ho E. destruct (own_sides _ _ Ho) as (N1 & N2 & N3 & B1 & B2).
  assert (F : forall x, frame h h d (mkD (dg d) (d_ad d) (d_au d) (fst x) (snd x))).
  { intro x. repeat split; auto. }
  unfold h_make_chance in E. unfold make_chance. unfold decisions, utilities. simpl.
  destruct (negb (mem n (nodes (dg d)))).
  { inversion E; subst. repeat split; auto; try apply Ho. }
  destruct (mem n (keys (d_da d))).
  { destruct (lookup n (d_da d)) as [a|].
    2:{ inversion E; subst. repeat split; auto; try apply Ho. }
    unfold h_remove in E. unfold dict_list_remove. rewrite lookup_view.
    destruct (lookup a (d_ad d)) as [p|] eqn:Ea; simpl.
    2:{ inversion E; subst. repeat split; auto; try apply Ho. }
    destruct (mem n (hget h p)) eqn:Em.
    2:{ inversion E; subst. repeat split; auto; try apply Ho. }
    assert (Hp := lookup_loc _ _ _ Ea). inversion E; subst. split.
    - unfold view; simpl. rewrite (view_hset _ _ _ _ _ N1 Ea) by auto. f_equal. f_equal. symmetry. apply view_ext.
      intros q Hq. rewrite hget_hset by auto. destruct (Nat.eqb_spec q p); auto. subst. exfalso. eapply N3; eauto.
    - split; [|split; [|split]]; auto.
      + split; [apply Ho|]. intros q Hq. rewrite length_hset. apply Ho. auto.
      + split; [rewrite length_hset; auto|]. split; auto. intros q Hq Hn. rewrite hget_hset by auto.
        destruct (Nat.eqb_spec q p); auto. subst. exfalso. apply Hn. apply in_or_app; auto.
      + apply length_hset. }
  destruct (mem n (keys (d_ua d))).
  { destruct (lookup n (d_ua d)) as [a|].
    2:{ inversion E; subst. repeat split; auto; try apply Ho. }
    unfold h_remove in E. unfold dict_list_remove. rewrite lookup_view.
    destruct (lookup a (d_au d)) as [p|] eqn:Ea; simpl.
    2:{ inversion E; subst. repeat split; auto; try apply Ho. }
    destruct (mem n (hget h p)) eqn:Em.
    2:{ inversion E; subst. repeat split; auto; try apply Ho. }
    assert (Hp := lookup_loc _ _ _ Ea). inversion E; subst. split.
    - unfold view; simpl. rewrite (view_hset _ _ _ _ _ N2 Ea) by auto. f_equal. f_equal. symmetry. apply view_ext.
      intros q Hq. rewrite hget_hset by auto. destruct (Nat.eqb_spec q p); auto. subst. exfalso. eapply N3; eauto.
    - split; [|split; [|split]]; auto.
      + split; [apply Ho|]. intros q Hq. rewrite length_hset. apply Ho. auto.
      + split; [rewrite length_hset; auto|]. split; auto. intros q Hq Hn. rewrite hget_hset by auto.
        destruct (Nat.eqb_spec q p); auto. subst. exfalso. apply Hn. apply in_or_app; auto.
      + apply length_hset. }
  inversion E; subst. repeat split; auto; try apply Ho.
Qed.

Lemma dict_append_view : forall h (d : list (agent * loc)) a n, NoDup (map snd d) -> (forall p, In p (map snd d) -> p < length h) ->
  view_lists (fst (h_append h d a n)) (snd (h_append h d a n)) = dict_list_append a n (view_lists h d).
Proof.
  intros h d a n Hn Hb. unfold h_append, dict_list_append. rewrite lookup_view.
  destruct (lookup a d) as [p|] eqn:E; simpl.
  - apply view_hset; auto. apply Hb. eapply lookup_loc; eauto.
  - apply view_fresh; auto.
Qed.
Lemma h_append_frame : forall h (d : list (agent * loc)) a n, (forall p, In p (map snd d) -> p < length h) ->
  length h <= length (fst (h_append h d a n)) /\
  (forall p, p < length h -> ~ In p (map snd d) -> hget (fst (h_append h d a n)) p = hget h p) /\
  (map snd (snd (h_append h d a n)) = map snd d \/
   (map snd (snd (h_append h d a n)) = map snd d ++ [length h] /\ length (fst (h_append h d a n)) = S (length h))).
Proof.
  intros h d a n Hb. unfold h_append. destruct (lookup a d) as [p|] eqn:E; simpl.
  - rewrite length_hset. split; auto. split; auto. intros q Hq Hn. assert (Hp := lookup_loc _ _ _ E).
    rewrite hget_hset by auto. destruct (Nat.eqb_spec q p); auto. subst; contradiction.
  - rewrite app_length. simpl. split; [lia|]. split.
    + intros q Hq _. apply hget_app; auto.
    + right. split; [apply snd_dset_fresh; auto|lia].
Qed.

Lemma h_apply_call_spec : forall h d c h' d' e, own_lists h d -> h_apply_call h d c = (h', d', e) ->
  apply_call (view h d) c = (view h' d', e) /\ own_lists h' d' /\ frame h h' d d'.
Proof.
  intros h d c h' d' e Ho E. destruct c as [n a|n a|n]; simpl in E; simpl; unfold make_decision, make_utility.
  - destruct (h_make_chance h d n) as [[h1 d1] e1] eqn:E1.
    destruct (h_make_chance_spec _ _ _ _ _ _ Ho E1) as (V & O & F & L & Len). rewrite V.
    destruct e1 as [e1|]; [inversion E; subst; auto|].
    destruct (own_sides _ _ O) as (N1 & N2 & N3 & B1 & B2).
    assert (P1 := dict_append_view h1 (d_ad d1) a n N1 B1).
    destruct (h_append_frame h1 (d_ad d1) a n B1) as (P2 & P3 & P4).
    destruct (h_append h1 (d_ad d1) a n) as [h2 ad2] eqn:E2. simpl in *. inversion E; subst. split.
    + f_equal. unfold view; simpl. f_equal; auto. symmetry. apply view_ext. intros p Hp. apply P3; auto.
      intro Hx. eapply N3; eauto.
    + assert (O2 : own_lists h' {| dg := dg d1; d_ad := ad2; d_au := d_au d1; d_da := dset n a (d_da d1); d_ua := d_ua d1 |}).
      { destruct O as [O1 O2]. unfold own_lists, locs in *; simpl. destruct P4 as [P4|[P4 P5]]; rewrite P4.
        - split; auto. intros p Hp. apply O2 in Hp. lia.
        - split.
          + rewrite <- app_assoc. eapply Permutation_NoDup; [|apply NoDup_snoc; [apply O1|]].
            * rewrite <- app_assoc. apply Permutation_app_head. apply Permutation_app_comm.
            * intro Hx. apply O2 in Hx. lia.
          + intros p Hp. rewrite P5. rewrite <- app_assoc in Hp. apply in_app_or in Hp. destruct Hp as [Hp|[Hp|Hp]].
            * specialize (B1 p Hp). lia.
            * lia.
            * specialize (B2 p Hp). lia. }
      split; auto. eapply frame_trans; [apply F|]. split; [auto|]. split.
      * intros p Hp Hn. apply P3; auto. intro Hx. apply Hn. apply in_or_app; auto.
      * intros p Hp. unfold locs in *; simpl in Hp. destruct P4 as [P4|[P4 P5]]; rewrite P4 in Hp.
        -- left; auto.
        -- rewrite <- app_assoc in Hp. apply in_app_or in Hp. destruct Hp as [Hp|[Hp|Hp]].
           ++ left. apply in_or_app; auto.
           ++ right. lia.
           ++ left. apply in_or_app; auto.
  - destruct (h_make_chance h d n) as [[h1 d1] e1] eqn:E1.
    destruct (h_make_chance_spec _ _ _ _ _ _ Ho E1) as (V & O & F & L & Len). rewrite V.
    destruct e1 as [e1|]; [inversion E; subst; auto|].
    destruct (own_sides _ _ O) as (N1 & N2 & N3 & B1 & B2).
    assert (P1 := dict_append_view h1 (d_au d1) a n N2 B2).
    destruct (h_append_frame h1 (d_au d1) a n B2) as (P2 & P3 & P4).
    destruct (h_append h1 (d_au d1) a n) as [h2 au2] eqn:E2. simpl in *. inversion E; subst. split.
    + f_equal. unfold view; simpl. f_equal; auto. symmetry. apply view_ext. intros p Hp. apply P3; auto.
    + assert (O2 : own_lists h' {| dg := dg d1; d_ad := d_ad d1; d_au := au2; d_da := d_da d1; d_ua := dset n a (d_ua d1) |}).
      { destruct O as [O1 O2]. unfold own_lists, locs in *; simpl. destruct P4 as [P4|[P4 P5]]; rewrite P4.
        - split; auto. intros p Hp. apply O2 in Hp. lia.
        - split.
          + rewrite app_assoc. apply NoDup_snoc; [apply O1|]. intro Hx. apply O2 in Hx. lia.
          + intros p Hp. rewrite P5. rewrite app_assoc in Hp. apply in_app_or in Hp. destruct Hp as [Hp|[Hp|[]]].
            * specialize (O2 p Hp). lia.
            * lia. }
      split; auto. eapply frame_trans; [apply F|]. split; [auto|]. split.
      * intros p Hp Hn. apply P3; auto. intro Hx. apply Hn. apply in_or_app; auto.
      * intros p Hp. unfold locs in *; simpl in Hp. destruct P4 as [P4|[P4 P5]]; rewrite P4 in Hp.
        -- left; auto.
        -- rewrite app_assoc in Hp. apply in_app_or in Hp. destruct Hp as [Hp|[Hp|[]]].
           ++ left; auto.
           ++ right. lia.
  - destruct (h_make_chance_spec _ _ _ _ _ _ Ho E) as (V & O & F & L & Len). auto.
Qed.
Lemma frame_view : forall h h' d d' e, frame h h' d d' -> own_lists h e -> (forall p, In p (locs e) -> ~ In p (locs d)) ->
  view h' e = view h e /\ own_lists h' e /\ forall p, In p (locs e) -> ~ In p (locs d').
Proof.
  intros h h' d d' e (F1 & F2 & F3) O D. split; [|split].
  - unfold view. f_equal; apply view_ext; intros p Hp;
      (apply F2; [apply O|apply D]; unfold locs; apply in_or_app; auto).
  - split; [apply O|]. intros p Hp. apply O in Hp. lia.
  - intros p Hp Hx. apply F3 in Hx. destruct Hx as [Hx|Hx]; [eapply D; eauto|]. apply O in Hp. lia.
Qed.
