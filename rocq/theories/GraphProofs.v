From Coq Require Import String List Arith Lia Bool Relations Permutation.
From Verif Require Import Base Graph.
Import ListNotations.

Lemma has_incoming_In edges x : has_incoming edges x = true <-> exists y, In (y, x) edges.
Proof.
  unfold has_incoming. rewrite existsb_exists. split.
  - intros ((y, z) & Hin & H). apply String.eqb_eq in H. cbn in H. subst. eauto.
  - intros [y H]. exists (y, x). split; [exact H|apply String.eqb_refl].
Qed.

Lemma remove_node_In x y l : In y (remove_node x l) <-> In y l /\ x <> y.
Proof. unfold remove_node. rewrite filter_In, negb_true_iff, String.eqb_neq. tauto. Qed.

Lemma remove_node_length x l : In x l -> NoDup l -> S (length (remove_node x l)) = length l.
Proof.
  intros Hin Hnd. induction Hnd as [|y ys Hy Hnd IH]; [destruct Hin|]. cbn.
  destruct (String.eqb_spec x y) as [->|Hne]; cbn.
  - f_equal. clear IH Hin Hnd. induction ys as [|z zs IH]; [reflexivity|]. cbn.
    destruct (String.eqb_spec y z) as [->|Hne]; cbn; [exfalso; apply Hy; left; reflexivity|].
    f_equal. apply IH. intros H. apply Hy. right. exact H.
  - f_equal. apply IH. destruct Hin as [->|H]; [congruence|exact H].
Qed.

Lemma remove_node_perm x l : In x l -> NoDup l -> Permutation (x :: remove_node x l) l.
Proof.
  intros Hin Hnd. apply NoDup_Permutation.
  - constructor; [rewrite remove_node_In; tauto|]. apply NoDup_filter, Hnd.
  - exact Hnd.
  - intros y. cbn. rewrite remove_node_In. split.
    + intros [->|H]; tauto.
    + intros H. destruct (String.eqb_spec x y); tauto.
Qed.

Definition inside (nodes : list string) (edges : list edge) : Prop :=
  forall x y, In (x, y) edges -> In x nodes /\ In y nodes.

Definition rest (x : string) (edges : list edge) := filter (fun e => negb (String.eqb x (fst e))) edges.

Lemma rest_In x y z edges : In (y, z) (rest x edges) <-> In (y, z) edges /\ x <> y.
Proof. unfold rest. rewrite filter_In, negb_true_iff, String.eqb_neq. cbn. tauto. Qed.

Lemma before_cons w l x y : before l x y -> before (w :: l) x y.
Proof. intros (l1 & l2 & l3 & ->). exists (w :: l1), l2, l3. reflexivity. Qed.

Lemma before_head x y l : In y l -> before (x :: l) x y.
Proof. intros H. apply in_split in H. destruct H as (l2 & l3 & ->). exists [], l2, l3. reflexivity. Qed.

Lemma toposort_n_some n : forall nodes edges l,
  NoDup nodes -> inside nodes edges -> toposort_n n nodes edges = Some l ->
  Permutation l nodes /\ forall x y, In (x, y) edges -> before l x y.
Proof.
  induction n as [|n IH]; intros nodes edges l Hnd Hin H.
  - destruct nodes; [|discriminate]. cbn in H. injection H as <-. split; [constructor|].
    intros x y Hxy. destruct (Hin x y Hxy) as [[] _].
  - destruct nodes as [|n0 ns]; [cbn in H; injection H as <-; split; [constructor|]; intros x y Hxy; destruct (Hin x y Hxy) as [[] _]|].
    set (nodes := n0 :: ns) in *. cbn [toposort_n] in H.
    change (match nodes with [] => Some [] | _ :: _ =>
              match find (fun x => negb (has_incoming edges x)) nodes with
              | None => None
              | Some x => option_map (cons x) (toposort_n n (remove_node x nodes) (rest x edges))
              end end = Some l) in H.
    unfold nodes in H at 1.
    destruct (find (fun x => negb (has_incoming edges x)) nodes) as [x|] eqn:Hf; [|discriminate].
    apply find_some in Hf. destruct Hf as [Hx Hni].
    destruct (toposort_n n (remove_node x nodes) (rest x edges)) as [l'|] eqn:Hl; [|discriminate]. injection H as <-.
    rewrite negb_true_iff, <- not_true_iff_false, has_incoming_In in Hni.
    destruct (IH (remove_node x nodes) (rest x edges) l') as [Hp Hb].
    + apply NoDup_filter, Hnd.
    + intros y z Hyz. apply rest_In in Hyz. destruct Hyz as [Hyz Hne]. destruct (Hin y z Hyz) as [H1 H2].
      rewrite !remove_node_In. repeat split; auto. intros ->. apply Hni. eauto.
    + exact Hl.
    + split.
      * eapply Permutation_trans; [apply perm_skip, Hp|apply remove_node_perm; assumption].
      * intros y z Hyz. destruct (String.eqb_spec x y) as [<-|Hne].
        -- apply before_head. apply (Permutation_in z (Permutation_sym Hp)). rewrite remove_node_In. split; [apply (Hin x z Hyz)|].
           intros ->. apply Hni. eauto.
        -- apply before_cons, Hb, rest_In. auto.
Qed.

(** Nodes of an acyclic finite graph have well-founded predecessors. *)
Lemma pred_acc nodes edges : inside nodes edges -> ~ has_cycle edges ->
  forall x, Acc (fun p y => In (p, y) edges) x.
Proof.
  intros Hin Hac.
  assert (H : forall k visited x, NoDup visited -> incl visited nodes ->
     (forall v, In v visited -> reaches edges x v) -> length nodes - length visited <= k ->
     Acc (fun p y => In (p, y) edges) x).
  { induction k as [|k IH]; intros visited x Hnd Hi Hr Hk; constructor; intros y Hy.
    - exfalso. assert (Hx : ~ In x visited) by (intros H; apply Hac; exists x; auto).
      assert (Hlen : length (x :: visited) <= length nodes).
      { apply NoDup_incl_length; [constructor; assumption|]. intros z [<-|Hz]; [apply (Hin y x Hy)|auto]. }
      cbn in Hlen. lia.
    - assert (Hx : ~ In x visited) by (intros H; apply Hac; exists x; auto).
      apply (IH (x :: visited)).
      + constructor; assumption.
      + intros z [<-|Hz]; [apply (Hin y x Hy)|auto].
      + intros v [<-|Hv]; [apply t_step; exact Hy|]. eapply t_trans; [apply t_step; exact Hy|apply Hr, Hv].
      + cbn [length]. lia. }
  intros x. apply (H (length nodes) [] x); [constructor|intros z []|intros v []|cbn; lia].
Qed.

Lemma toposort_n_total n : forall nodes edges,
  length nodes <= n -> NoDup nodes -> inside nodes edges -> ~ has_cycle edges ->
  exists l, toposort_n n nodes edges = Some l.
Proof.
  induction n as [|n IH]; intros nodes edges Hlen Hnd Hin Hac.
  - destruct nodes; [exists []; reflexivity|cbn in Hlen; lia].
  - destruct nodes as [|n0 ns]; [exists []; reflexivity|]. set (nodes := n0 :: ns) in *.
    change (exists l, match find (fun x => negb (has_incoming edges x)) nodes with
              | None => None
              | Some x => option_map (cons x) (toposort_n n (remove_node x nodes) (rest x edges))
              end = Some l).
    destruct (find (fun x => negb (has_incoming edges x)) nodes) as [x|] eqn:Hf.
    + apply find_some in Hf. destruct Hf as [Hx Hni].
      rewrite negb_true_iff, <- not_true_iff_false, has_incoming_In in Hni.
      destruct (IH (remove_node x nodes) (rest x edges)) as [l Hl].
      * pose proof (remove_node_length x nodes Hx Hnd). lia.
      * apply NoDup_filter, Hnd.
      * intros y z Hyz. apply rest_In in Hyz. destruct Hyz as [Hyz Hne]. destruct (Hin y z Hyz) as [H1 H2].
        rewrite !remove_node_In. repeat split; auto. intros ->. apply Hni. eauto.
      * intros [y Hy]. apply Hac. exists y. revert Hy. generalize y at 2 4. intros z Hz.
        unfold reaches. induction Hz as [a b H|a b c _ IH1 _ IH2]; [apply t_step; apply rest_In in H; tauto|eapply t_trans; eassumption].
      * exists (x :: l). rewrite Hl. reflexivity.
    + exfalso. assert (Hall : forall y, In y nodes -> exists p, In (p, y) edges).
      { intros y Hy. apply has_incoming_In. pose proof (find_none _ _ Hf y Hy) as H. cbn in H.
        apply negb_false_iff in H. exact H. }
      assert (Hn : forall y, In y nodes -> False).
      { intros y. induction (pred_acc nodes edges Hin Hac y) as [y _ IHy]. intros Hy.
        destruct (Hall y Hy) as [p Hp]. apply (IHy p Hp). apply (Hin p y Hp). }
      apply (Hn n0). left. reflexivity.
Qed.

Lemma before_irrefl l x : NoDup l -> ~ before l x x.
Proof.
  intros Hnd (l1 & l2 & l3 & ->). apply NoDup_remove_2 in Hnd. apply Hnd.
  apply in_or_app. right. apply in_or_app. right. left. reflexivity.
Qed.

Fixpoint index (x : string) (l : list string) : nat :=
  match l with [] => 0 | y :: ys => if String.eqb x y then 0 else S (index x ys) end.

Lemma index_app_notin x l l' : ~ In x l -> index x (l ++ x :: l') = length l.
Proof.
  induction l as [|y ys IH]; cbn; intros H.
  - rewrite String.eqb_refl. reflexivity.
  - destruct (String.eqb_spec x y) as [->|Hne]; [exfalso; auto|]. f_equal. apply IH. auto.
Qed.

Lemma before_index l x y : NoDup l -> before l x y -> index x l < index y l.
Proof.
  intros Hnd (l1 & l2 & l3 & ->).
  assert (Hx : ~ In x l1).
  { apply NoDup_remove_2 in Hnd. intros H. apply Hnd, in_or_app. auto. }
  assert (Hy : ~ In y (l1 ++ x :: l2)).
  { replace (l1 ++ x :: l2 ++ y :: l3) with ((l1 ++ x :: l2) ++ y :: l3) in Hnd by (rewrite <- app_assoc; reflexivity).
    apply NoDup_remove_2 in Hnd. intros H. apply Hnd, in_or_app. auto. }
  rewrite (index_app_notin x l1 _ Hx).
  replace (l1 ++ x :: l2 ++ y :: l3) with ((l1 ++ x :: l2) ++ y :: l3) by (rewrite <- app_assoc; reflexivity).
  rewrite (index_app_notin y _ _ Hy), app_length. cbn. lia.
Qed.

Lemma toposort_spec nodes edges : NoDup nodes -> inside nodes edges ->
  match toposort nodes edges with
  | Some l => ~ has_cycle edges /\ Permutation l nodes /\ forall x y, In (x, y) edges -> before l x y
  | None => has_cycle edges
  end.
Proof.
  intros Hnd Hin. destruct (toposort nodes edges) as [l|] eqn:H.
  - destruct (toposort_n_some _ _ _ _ Hnd Hin H) as [Hp Hb]. split; [|auto].
    assert (Hnl : NoDup l) by (eapply Permutation_NoDup; [apply Permutation_sym, Hp|exact Hnd]).
    assert (Hlt : forall x y, reaches edges x y -> index x l < index y l).
    { intros x y Hxy. induction Hxy as [x y Hxy|x y z _ IH1 _ IH2]; [apply before_index; auto|lia]. }
    intros [x Hx]. apply Hlt in Hx. lia.
  - (* decidable: the search space is finite, so use totality contrapositively *)
    assert (Hdec : has_cycle edges \/ ~ has_cycle edges).
    { destruct (toposort_n (length nodes) nodes edges) eqn:E.
      - unfold toposort in H. congruence.
      - clear H. left. revert E. unfold toposort.
        enough (forall n nodes edges, length nodes <= n -> NoDup nodes -> inside nodes edges ->
                  toposort_n n nodes edges = None -> has_cycle edges) by eauto.
        clear. induction n as [|n IH]; intros nodes edges Hlen Hnd Hin E.
        + destruct nodes; [discriminate|cbn in Hlen; lia].
        + destruct nodes as [|n0 ns]; [discriminate|]. set (nodes := n0 :: ns) in *.
          change (match find (fun x => negb (has_incoming edges x)) nodes with
              | None => None
              | Some x => option_map (cons x) (toposort_n n (remove_node x nodes) (rest x edges))
              end = None) in E.
          destruct (find (fun x => negb (has_incoming edges x)) nodes) as [x|] eqn:Hf.
          * apply find_some in Hf. destruct Hf as [Hx Hni].
            rewrite negb_true_iff, <- not_true_iff_false, has_incoming_In in Hni.
            destruct (toposort_n n (remove_node x nodes) (rest x edges)) eqn:El; [discriminate|].
            apply IH in El.
            -- destruct El as [y Hy]. exists y. revert Hy. generalize y at 2 4. intros z Hz.
               unfold reaches. induction Hz as [a b H|a b c _ IH1 _ IH2]; [apply t_step; apply rest_In in H; tauto|eapply t_trans; eassumption].
            -- pose proof (remove_node_length x nodes Hx Hnd). lia.
            -- apply NoDup_filter, Hnd.
            -- intros y z Hyz. apply rest_In in Hyz. destruct Hyz as [Hyz Hne]. destruct (Hin y z Hyz) as [H1 H2].
               rewrite !remove_node_In. repeat split; auto. intros ->. apply Hni. eauto.
          * assert (Hall : forall y, In y nodes -> exists p, In (p, y) edges).
            { intros y Hy. apply has_incoming_In. pose proof (find_none _ _ Hf y Hy) as H. cbn in H.
              apply negb_false_iff in H. exact H. }
            (* walk backwards until a node repeats *)
            assert (Hwalk : forall k visited x, In x nodes -> NoDup visited -> incl visited nodes ->
                 (forall v, In v visited -> reaches edges x v) -> length nodes - length visited <= k -> has_cycle edges).
            { induction k as [|k IHk]; intros visited x Hx Hnv Hi Hr Hk.
              - destruct (in_dec string_dec x visited) as [Hv|Hv]; [exists x; auto|]. exfalso.
                assert (Hlen' : length (x :: visited) <= length nodes).
                { apply NoDup_incl_length; [constructor; assumption|]. intros z [<-|Hz]; auto. }
                cbn [length] in Hlen'. lia.
              - destruct (in_dec string_dec x visited) as [Hv|Hv]; [exists x; auto|].
                destruct (Hall x Hx) as [p Hp]. apply (IHk (x :: visited) p).
                + apply (Hin p x Hp).
                + constructor; assumption.
                + intros z [<-|Hz]; auto.
                + intros v [<-|Hv']; [apply t_step; exact Hp|]. eapply t_trans; [apply t_step; exact Hp|apply Hr, Hv'].
                + cbn [length]. lia. }
            apply (Hwalk (length nodes) [] n0); [left; reflexivity|constructor|intros z []|intros v []|lia]. }
    destruct Hdec as [Hc|Hc]; [exact Hc|].
    destruct (toposort_n_total (length nodes) nodes edges (Nat.le_refl _) Hnd Hin Hc) as [l Hl]. unfold toposort in H. congruence.
Qed.
