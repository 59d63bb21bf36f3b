(** Properties C13 and C14: the order of the modules of a network. *)
From Verif Require Import Base Dict StableSort Topo_Model Topo_Spec Topo_Proofs Topo_Proofs2.

(** C13: a topological order of exactly the added modules, or the construction error. *)
Theorem C13_topological_order : forall name ops, closed ops ->
  (acyclic (linked ops) ->
     exists l, topologicalSort name (nrun empty_net ops) = Ok l /\ NoDup l /\
       (forall m, In m l <-> has_module ops m) /\ forall u v, linked ops u v -> before u v l) /\
  (~ acyclic (linked ops) -> topologicalSort name (nrun empty_net ops) = Err NetworkConstructionError).
Proof. exact topo_session. Qed.
Print Assumptions C13_topological_order.

(** A connection between modules that were not added surfaces as a KeyError. *)
Theorem C13_missing_module : forall name ops, ~ closed ops ->
  topologicalSort name (nrun empty_net ops) = Err KeyError.
Proof. exact topo_missing. Qed.
Print Assumptions C13_missing_module.

Definition C13_ops : list nop :=
  [AddModule 3; AddModule 1; AddConnection (mkconn 1 2 0); AddConnection (mkconn 3 2 1);
   AddModule 2; AddConnection (mkconn 3 1 2); AddConnection (mkconn 3 2 3)].
Example C13_case : closed C13_ops /\ acyclic (linked C13_ops) /\
  topologicalSort (fun m => m) (nrun empty_net C13_ops) = Ok [3; 1; 2] /\
  topologicalSort (fun m => m) (nrun empty_net (AddConnection (mkconn 2 3 9) :: C13_ops)) = Err NetworkConstructionError.
Proof.
  split; [|split; [|split; reflexivity]].
  - intros c H. unfold C13_ops, has_module in *. cbn in H |- *.
    repeat (destruct H as [H|H]; [try discriminate; injection H as <-; cbn; intuition|]). destruct H.
  - apply (order_acyclic _ [3; 1; 2]).
    + repeat constructor; cbn; intuition lia.
    + intros u v (c & H & <- & <-). cbn in H.
      repeat (destruct H as [H|H]; [try discriminate; injection H as <-; cbn; intuition|]). destruct H.
    + intros l1 v l2 E u (c & H & <- & <-). unfold C13_ops in H. cbn in H.
      destruct l1 as [|a [|b [|d [|f l1]]]]; cbn in E; try discriminate; injection E as E; subst;
      repeat (destruct H as [H|H]; [try discriminate; injection H as <-; cbn in *; try discriminate; try (intuition lia)|]); destruct H.
Qed.

(** C14: the order of modules and of parameter containers depends only on the modules
    and on the order of each module's own connections. *)
Theorem C14_iteration_order_irrelevant : forall name ops n', closed ops ->
  same_net (nrun empty_net ops) n' ->
  distinct_names name (n_modules (nrun empty_net ops)) ->
  match sortModules name (nrun empty_net ops), sortModules name n' with
  | Ok s, Ok s' => fst s = fst s' /\ containers s = containers s'
  | Err e, Err e' => e = e'
  | _, _ => False
  end.
Proof. intros name ops n' Hc Hs Hn. apply sort_same; auto. apply sess_nwf; auto. Qed.
Print Assumptions C14_iteration_order_irrelevant.

Theorem C14_building_order_irrelevant : forall name ops ops', closed ops ->
  (forall m, has_module ops m <-> has_module ops' m) ->
  (forall k, outgoing ops k = outgoing ops' k) ->
  (forall x y, has_module ops x -> has_module ops y -> name x = name y -> x = y) ->
  match sortModules name (nrun empty_net ops), sortModules name (nrun empty_net ops') with
  | Ok s, Ok s' => fst s = fst s' /\ containers s = containers s'
  | Err e, Err e' => e = e'
  | _, _ => False
  end.
Proof.
  intros name ops ops' Hc Hm Ho Hn. apply sort_same; [apply sessions_same; auto|apply sess_nwf; auto|].
  intros x y Hx Hy. pose proof (sess_run ops) as Hs. apply Hn; apply Hs; auto.
Qed.
Print Assumptions C14_building_order_irrelevant.

Definition C14_ops : list nop :=
  [AddConnection (mkconn 3 2 1); AddModule 2; AddConnection (mkconn 3 1 2); AddModule 1;
   AddConnection (mkconn 1 2 0); AddModule 3; AddConnection (mkconn 3 2 3)].
Example C14_case : (forall m, has_module C13_ops m <-> has_module C14_ops m) /\
  (forall k, outgoing C13_ops k = outgoing C14_ops k) /\
  n_modules (nrun empty_net C13_ops) <> n_modules (nrun empty_net C14_ops) /\
  match sortModules (fun m => m) (nrun empty_net C14_ops) with
  | Ok s => containers s = [CMod 3; CConn (mkconn 3 2 1); CConn (mkconn 3 1 2); CConn (mkconn 3 2 3);
                            CMod 1; CConn (mkconn 1 2 0); CMod 2]
  | Err _ => False end.
Proof.
  split; [|split; [|split]].
  - intro m. unfold has_module, C13_ops, C14_ops. cbn.
    split; intro H; repeat (destruct H as [H|H]; [try discriminate; injection H as <-; intuition|]); destruct H.
  - intro k. unfold outgoing, C13_ops, C14_ops. cbn.
    destruct k as [|[|[|[|k]]]]; reflexivity.
  - cbn. discriminate.
  - reflexivity.
Qed.

(** Two modules of the same name: the iteration order of the set decides. *)
Theorem C14_equal_names_refuted : exists name n n', same_net n n' /\ nwf n /\
  topologicalSort name n <> topologicalSort name n'.
Proof.
  exists (fun _ => 0), (mknet [1; 2] []), (mknet [2; 1] []). split; [|split].
  - constructor; cbn; try constructor; auto.
    intros k l [].
  - split; cbn; [repeat constructor; cbn; intuition lia|intros c []].
  - vm_compute. discriminate.
Qed.
Print Assumptions C14_equal_names_refuted.

(** Adding the connections of one module in another order changes the module order. *)
Theorem C14_connection_order_refuted : exists name ops ops', closed ops /\
  (forall o, In o ops <-> In o ops') /\ distinct_names name (n_modules (nrun empty_net ops)) /\
  topologicalSort name (nrun empty_net ops) <> topologicalSort name (nrun empty_net ops').
Proof.
  exists (fun m => m),
    [AddModule 1; AddModule 2; AddModule 3; AddConnection (mkconn 1 2 1); AddConnection (mkconn 1 3 2)],
    [AddModule 1; AddModule 2; AddModule 3; AddConnection (mkconn 1 3 2); AddConnection (mkconn 1 2 1)].
  split; [|split; [|split]].
  - intros c H. unfold has_module. cbn in *. repeat (destruct H as [H|H]; [try discriminate; injection H as <-; cbn; intuition|]). destruct H.
  - intro o. cbn. intuition.
  - intros x y _ _ H. exact H.
  - vm_compute. discriminate.
Qed.
Print Assumptions C14_connection_order_refuted.
