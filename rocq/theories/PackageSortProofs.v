From Coq Require Import String List Bool Permutation Relations.
From Verif Require Import Base Graph GraphProofs PackageSort.
Import ListNotations.

Definition depends (c : configurations) (x y : string) : Prop := exists ds, In (x, ds) c /\ In y ds.

Lemma package_edges_In c x y : In (x, y) (package_edges c) <-> depends c x y.
Proof.
  unfold package_edges, depends. rewrite in_flat_map. split.
  - intros ([p ds] & Hp & H). apply in_map_iff in H. destruct H as (d & E & Hd). injection E as -> ->. eauto.
  - intros (ds & Hc & Hy). exists (x, ds). split; [exact Hc|]. apply in_map_iff. exists y. auto.
Qed.

Lemma reaches_depends c x y : reaches (package_edges c) x y <-> clos_trans string (depends c) x y.
Proof.
  split; induction 1.
  - apply t_step, package_edges_In. assumption.
  - eapply t_trans; eassumption.
  - apply t_step, package_edges_In. assumption.
  - eapply t_trans; eassumption.
Qed.

Lemma forallb_false {A} (g : A -> bool) l : forallb g l = false -> exists e, In e l /\ g e = false.
Proof.
  induction l as [|e l IH]; cbn; [discriminate|].
  destruct (g e) eqn:G; [|exists e; auto]. intros H. destruct (IH H) as (e' & H1 & H2). exists e'. auto.
Qed.

Lemma sort_packages_spec c : NoDup (map fst c) ->
  match sort_packages c with
  | Ok (Some l) => Permutation l (map fst c) /\ (forall x y, depends c x y -> before l x y) /\ forall x, ~ clos_trans string (depends c) x x
  | Ok None => exists x, clos_trans string (depends c) x x
  | _ => exists x y, depends c x y /\ ~ In y (map fst c)
  end.
Proof.
  intros Hn. unfold sort_packages. destruct (forallb _ _) eqn:Hf.
  - rewrite forallb_forall in Hf.
    assert (Hin : inside (map fst c) (package_edges c)).
    { intros x y H. pose proof (Hf _ H) as G. cbn in G. apply mem_In in G. split; [|exact G].
      apply package_edges_In in H. destruct H as (ds & H & _). apply in_map_iff. exists (x, ds). auto. }
    pose proof (toposort_spec _ _ Hn Hin) as H. destruct (toposort _ _) as [l|].
    + destruct H as (H1 & H2 & H3). repeat split; [exact H2| |].
      * intros x y Hd. apply H3, package_edges_In, Hd.
      * intros x Hx. apply H1. exists x. apply reaches_depends, Hx.
    + destruct H as [x Hx]. exists x. apply reaches_depends, Hx.
  - assert (exists e, In e (package_edges c) /\ mem (snd e) (map fst c) = false) as ([x y] & He & Hm).
    { exact (forallb_false _ _ Hf). }
    exists x, y. split; [apply package_edges_In, He|]. apply mem_not_In, Hm.
Qed.
