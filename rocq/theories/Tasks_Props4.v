(** Property C84, continued: one action in the 4x3 maze. *)
From Verif Require Import Base Maze_Model Maze_Props Tasks_Model Tasks_Spec Tasks_Props Tasks_Props2 Tasks_Props3.
From Coq Require Import QArith Lqa.
Local Open Scope nat_scope.

(** the directions among which a disturbed action is drawn: all four for north and east (0 and 1); see C56 for the others *)
Definition others (a : nat) : list nat :=
  match a with 2 => [1; 2; 3] | 3 => [0; 2; 3] | _ => [0; 1; 2; 3] end.
Lemma poss_others a : a < 4 -> maze4x3_poss (Z.of_nat a) = map Z.of_nat (others a).
Proof. intros H. destruct a as [| [| [| [| a]]]]; [reflexivity .. | lia]. Qed.
(** The action is replaced by one of its alternatives iff the draw is below a tenth of their number; after that the maze
    itself may replace it again.  The reward of the cell reached is added with its discount. *)
Theorem C84_four_step d acts f f' a u1 c1 u dd : Forall (fun x => fst (fst (fst (fst x))) < 4) acts -> a < 4 ->
  mkFour d = Ok f -> four_run f acts = Ok f' ->
  exists f2 act k, four_performAction f' (Z.of_nat a) u1 c1 u dd = Ok f2 /\
    ((u1 < (1 # 10) * inject_Z (Z.of_nat (length (others a))))%Q -> act = nth (c1 mod length (others a)) (others a) 0) /\
    (((1 # 10) * inject_Z (Z.of_nat (length (others a))) <= u1)%Q -> act = a) /\
    walked 4 (1 # 10) act u dd k /\ moved (tk_env (fo_task f')) (tk_env (fo_task f2)) k /\
    fo_minReward f2 = (-4 # 100)%Q /\
    tk_samples (fo_task f2) = tk_samples (fo_task f') + 1 /\
    (tk_cum (fo_task f2) == tk_cum (fo_task f') + qpower (95 # 100) (tk_samples (fo_task f2)) *
        (if is_goal (Some four_goal) (mz_pos (tk_env (fo_task f2))) then 1 else (-4 # 100)))%Q.
Proof.
  intros HA Ha E E'.
  assert (Run : forall l g g', Forall (fun x => fst (fst (fst (fst x))) < 4) l -> four_wf g -> mz_stochAction (tk_env (fo_task g)) = (1 # 10)%Q -> tk_discount (fo_task g) = Some (95 # 100)%Q ->
     four_run g l = Ok g' -> four_wf g' /\ mz_stochAction (tk_env (fo_task g')) = (1 # 10)%Q /\ tk_discount (fo_task g') = Some (95 # 100)%Q).
  { clear. induction l as [| [[[[a u1] c1] u] dd] l IH]; intros g g' HL Hw Hs Hd E; cbn [four_run] in E; [injection E as <-; auto |].
    inversion HL as [| ? ? H1 H2]; subst. cbn [fst] in H1. destruct (four_step g a u1 c1 u dd Hw H1) as (g1 & E1 & W1 & _). rewrite E1 in E. cbn [rbind] in E.
    apply (IH g1 g' H2 W1); [| | exact E]; revert E1; unfold four_performAction; destruct (if qlt _ _ then _ else _) as [act |]; cbn [rbind]; try discriminate;
      unfold task_performAction; destruct (performAction (tk_env (fo_task g)) act u dd) as [m' |] eqn:Ep; cbn [rbind]; try discriminate; intros [= <-]; cbn [fo_task];
      unfold addReward, four_getReward; destruct Hw as (_ & _ & _ & -> & _); unfold maze_getReward; cbn [tk_env tk_discount].
    - unfold performAction in Ep. destruct (py_nth _ _); [| discriminate]. unfold try_move in Ep. destruct (table_at _ _) as [[|] |]; [.. | discriminate]; injection Ep as <-; exact Hs.
    - exact Hd. }
  destruct (mkFour_spec d) as (f0 & E0 & Wf & _). rewrite E0 in E. injection E as ->.
  assert (S0 : mz_stochAction (tk_env (fo_task f)) = (1 # 10)%Q /\ tk_discount (fo_task f) = Some (95 # 100)%Q).
  { revert E0. unfold mkFour. destruct (mkMaze _ _ _ _ _ _) as [m |] eqn:Em; [| discriminate]. cbn [rbind]. unfold four_reset, task_reset. cbn [fo_task tk_env].
    unfold reset. destruct (choose (mz_init m) d) as [p |]; [| discriminate]. cbn [rbind]. intros [= <-]. cbn [fo_task tk_env with_pos mz_stochAction tk_discount]. split; [| reflexivity].
    revert Em. unfold mkMaze. cbn [rbind]. unfold reset. destruct (choose _ d) as [q |]; [| discriminate]. cbn [rbind]. intros [= <-]. reflexivity. }
  destruct (Run acts f f' HA Wf (proj1 S0) (proj2 S0) E') as (W' & S' & D'). clear Run E' Wf S0 E0.
  destruct W' as (G & ET & EG & EB & E1 & E2 & E3 & E4).
  set (act := if qlt u1 ((1 # 10) * inject_Z (Z.of_nat (length (others a)))) then nth (c1 mod length (others a)) (others a) 0 else a).
  assert (Hact : act < 4).
  { unfold act. destruct (qlt u1 _); [| auto]. assert (In (nth (c1 mod length (others a)) (others a) 0) (others a)).
    { apply nth_In. apply Nat.mod_upper_bound. destruct a as [| [| [| [| a]]]]; cbn; lia. }
    destruct a as [| [| [| [| a]]]]; cbn in H |- *; lia. }
  destruct (C40_step (tk_env (fo_task f')) 6 act u dd (proj1 G) (proj1 (proj2 (proj2 (proj2 G)))) Hact) as (k & m1 & Hw & E & M & W).
  assert (EP : (if qlt u1 (mz_stochAction (tk_env (fo_task f')) * inject_Z (Z.of_nat (length (maze4x3_poss (Z.of_nat a)))))
    then match maze4x3_poss (Z.of_nat a) with [] => Err IndexError | p :: _ => Ok (nth (c1 mod length (maze4x3_poss (Z.of_nat a))) (maze4x3_poss (Z.of_nat a)) p) end
    else Ok (Z.of_nat a)) = Ok (Z.of_nat act)).
  { rewrite S', (poss_others a Ha), map_length. unfold act. destruct (qlt u1 _); [| reflexivity].
    assert (L : c1 mod length (others a) < length (others a)) by (apply Nat.mod_upper_bound; destruct a as [| [| [| [| a]]]]; cbn; lia).
    destruct (map Z.of_nat (others a)) as [| p l] eqn:El; [destruct a as [| [| [| [| a]]]]; discriminate |]. f_equal. rewrite <- El.
    rewrite (nth_indep _ p (Z.of_nat 0)) by (rewrite map_length; auto). apply map_nth. }
  unfold four_performAction. rewrite EP. cbn [rbind]. unfold task_performAction. rewrite E. cbn [rbind]. eexists _, act, k. split; [reflexivity |].
  split; [intros L; unfold act; apply qlt_iff in L; now rewrite L |].
  split; [intros L; unfold act; destruct (qlt_cases u1 ((1 # 10) * inject_Z (Z.of_nat (length (others a))))) as [[_ K] | [-> _]]; [exfalso; lra | reflexivity] |].
  split; [rewrite <- S'; exact Hw |]. rewrite EB. unfold addReward, four_getReward, maze_getReward. cbn [fo_task fo_minReward tk_env tk_samples tk_cum tk_discount tk_finalReward tk_bangPenalty tk_defaultPenalty].
  split; [exact M |]. split; [exact E4 |]. split; [reflexivity |]. rewrite D', E1, E2, E3. destruct W as (_ & W2 & _). rewrite W2, EG.
  assert (Q0 : Qeq_bool (95 # 100) 0 = false) by reflexivity. rewrite Q0. destruct (is_goal _ _); [reflexivity |]. destruct (mz_bang m1); reflexivity.
Qed.
Example four_step_case : exists f f2, mkFour 0 = Ok f /\ four_performAction f 2 (1 # 5) 1 1 0 = Ok f2 /\ mz_pos (tk_env (fo_task f)) = (1, 1)%Z /\
  mz_pos (tk_env (fo_task f2)) = (1, 1)%Z /\ mz_bang (tk_env (fo_task f2)) = true /\ exists f3, four_performAction f 2 (1 # 5) 0 1 0 = Ok f3 /\ mz_pos (tk_env (fo_task f3)) = (1, 2)%Z.
Proof. eexists _, _. split; [vm_compute; reflexivity |]. split; [vm_compute; reflexivity |]. do 3 (split; [reflexivity |]). eexists. split; [vm_compute; reflexivity |]. reflexivity. Qed.
Print Assumptions C84_four_step.
