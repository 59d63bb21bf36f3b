(** C74: copies that share structure. *)
From Verif Require Import Base Masked_Model Copies_Model Copies_Spec Copies_Proofs.
From Coq Require Import QArith Lia.
Import ListNotations.
Local Open Scope nat_scope.

Lemma wrap_sim {B} n (p : list Q) (b : B) d : length p = n -> length d = n -> sim n None None (wrap p b d) [{| o_params := p; o_buf := b; o_derivs := d |}].
Proof.
  intros Hp Hd. split; cbn [wrap s_params s_buf s_derivs arrays cops]; auto; try discriminate.
  - intros [|[|i]] a H; cbn in H; try discriminate. injection H as <-. cbn. lia.
  - constructor; [intros []|constructor].
  - intros [|[|i]] a m H1 H2; cbn in H1, H2; try discriminate. injection H1 as <-. injection H2 as <-. reflexivity.
Qed.

(** Copies of a module without memory (its output depends on parameters and input only) answer everything as independent
    modules would, in whatever order they are used: copying, activating, mutating, randomizing, setting and reading parameters. *)
Theorem C74_stateless : forall (B : Type) (M : module B) p b d os, (forall q b1 b2 x, snd (act M q b1 x) = snd (act M q b2 x)) -> length d = length p ->
  Forall no_sharing os -> Forall no_derivs os ->
  snd (perform_all M (wrap p b d) os) = snd (ideal_all M (length p) [{| o_params := p; o_buf := b; o_derivs := d |}] os).
Proof. intros B M p b d os HA HL HS HD. apply run_stateless; auto. apply wrap_sim; auto. Qed.

(** Copies of any module do so, derivatives included, if a copy that was not the last to use the shared buffers (derivatives) resets them first. *)
Theorem C74_turns : forall (B : Type) (M : module B) p b d os, (forall q b1 d1 e, length (fst (back M q b1 d1 e)) = length d1) -> length d = length p ->
  Forall no_sharing os -> in_turn None None os -> ~ In (Err IndexError) (snd (ideal_all M (length p) [{| o_params := p; o_buf := b; o_derivs := d |}] os)) ->
  snd (perform_all M (wrap p b d) os) = snd (ideal_all M (length p) [{| o_params := p; o_buf := b; o_derivs := d |}] os).
Proof. intros B M p b d os HB HL HS HT HE. apply (run_sim M (length p) HB os None None); auto. apply wrap_sim; auto. Qed.

(** a recurrent unit with one weight: s := w s + x *)
Definition unit1 : module Q := {|
  act := fun p s x => let s' := (nth 0 p 0 * s + nth 0 x 0)%Q in (s', [s']);
  back := fun p s d e => (map (fun q => (q + s * nth 0 e 0)%Q) d, [(nth 0 p 0 * nth 0 e 0)%Q]);
  fresh := 0%Q |}.
(** a linear unit *)
Definition unit0 : module unit := {| act := fun p s x => (tt, [(nth 0 p 0 * nth 0 x 0)%Q]); back := fun _ _ d e => (d, e); fresh := tt |}.

Example C74_stateless_ex : Forall no_sharing [Copy 0; Mutate 1 [2%Q]; Activate 0 [5%Q]; Activate 1 [5%Q]; SetList 0 [7%Q]; Activate 0 [1%Q]; Activate 1 [1%Q]] /\
  snd (perform_all unit0 (wrap [1%Q] tt [0%Q]) [Copy 0; Mutate 1 [2%Q]; Activate 0 [5%Q]; Activate 1 [5%Q]; SetList 0 [7%Q]; Activate 0 [1%Q]; Activate 1 [1%Q]]) =
  [Ok []; Ok []; Ok [5%Q]; Ok [15%Q]; Ok []; Ok [7%Q]; Ok [3%Q]].
Proof. split; [repeat constructor|vm_compute; reflexivity]. Qed.

Definition inTurns : list op :=
  [Reset 0; ResetDerivatives 0; Activate 0 [1%Q]; Activate 0 [1%Q]; BackActivate 0 [1%Q]; Derivs 0; Copy 0; Mutate 1 [1%Q];
   Reset 1; ResetDerivatives 1; Activate 1 [1%Q]; Activate 1 [1%Q]; Derivs 1; Reset 0; Activate 0 [1%Q]].
Example C74_turns_ex : (forall q b1 d1 e, length (fst (back unit1 q b1 d1 e)) = length d1) /\ Forall no_sharing inTurns /\ in_turn None None inTurns /\
  ~ In (Err IndexError) (snd (ideal_all unit1 1 [{| o_params := [2%Q]; o_buf := 9%Q; o_derivs := [4%Q] |}] inTurns)) /\
  snd (perform_all unit1 (wrap [2%Q] 9%Q [4%Q]) inTurns) = [Ok []; Ok []; Ok [1%Q]; Ok [3%Q]; Ok [2%Q]; Ok [3%Q]; Ok []; Ok []; Ok []; Ok []; Ok [1%Q]; Ok [4%Q]; Ok [0%Q]; Ok []; Ok [1%Q]].
Proof.
  split; [intros; cbn; apply map_length|]. split; [repeat constructor|]. split; [repeat split|]. split; [|vm_compute; reflexivity].
  vm_compute. intro H. repeat (destruct H as [H|H]; [discriminate|]). exact H.
Qed.

(** Without turns they do not: two recurrent copies disturb each other. *)
Theorem C74_interleaved_refuted : exists os, Forall no_sharing os /\ Forall no_derivs os /\
  ~ In (Err IndexError) (snd (ideal_all unit1 1 [{| o_params := [2%Q]; o_buf := 0%Q; o_derivs := [0%Q] |}] os)) /\
  snd (perform_all unit1 (wrap [2%Q] 0%Q [0%Q]) os) <> snd (ideal_all unit1 1 [{| o_params := [2%Q]; o_buf := 0%Q; o_derivs := [0%Q] |}] os).
Proof.
  exists [Copy 0; Reset 0; Reset 1; Activate 0 [1%Q]; Activate 1 [1%Q]]. split; [repeat constructor|]. split; [repeat constructor|]. split.
  - vm_compute. intro H. repeat (destruct H as [H|H]; [discriminate|]). exact H.
  - vm_compute. discriminate.
Qed.

(** All copies always show the same derivatives, whoever's they are. *)
Theorem C74_derivs_refuted : forall (B : Type) (M : module B) (w : world B) i j r r', snd (perform M w (Derivs i)) = Ok r -> snd (perform M w (Derivs j)) = Ok r' -> r = r'.
Proof. intros B M w i j r r'. cbn [perform]. destruct (nth_error (cops w) i), (nth_error (cops w) j); cbn; congruence. Qed.
Example C74_derivs_ex : snd (perform_all unit1 (wrap [2%Q] 0%Q [0%Q]) [Copy 0; Activate 0 [1%Q]; BackActivate 0 [1%Q]; Derivs 1]) = [Ok []; Ok [1%Q]; Ok [2%Q]; Ok [1%Q]] /\
  snd (ideal_all unit1 1 [{| o_params := [2%Q]; o_buf := 0%Q; o_derivs := [0%Q] |}] [Copy 0; Activate 0 [1%Q]; BackActivate 0 [1%Q]; Derivs 1]) = [Ok []; Ok [1%Q]; Ok [2%Q]; Ok []].
Proof. split; vm_compute; reflexivity. Qed.

(** A copy given the parameter array of another keeps that array: mutating one of them mutates both. *)
Theorem C74_array_refuted : forall (B : Type) (M : module B) (w : world B) i j a b d, nth_error (cops w) i = Some a -> nth_error (cops w) j = Some b ->
  let w1 := fst (perform M w (SetArray i j)) in let w2 := fst (perform M w1 (Mutate i d)) in snd (perform M w2 (GetParams i)) = snd (perform M w2 (GetParams j)).
Proof.
  intros B M w i j a b d Hi Hj w1 w2.
  assert (E1 : cops w1 = upd i b (cops w)) by (unfold w1; cbn [perform]; rewrite Hi, Hj; reflexivity).
  assert (HI : i < length (cops w)) by (apply nth_error_Some; congruence).
  assert (A1 : nth_error (cops w1) i = Some b) by (rewrite E1, nth_error_upd, Nat.eqb_refl; destruct (Nat.ltb_spec i (length (cops w))); [reflexivity|lia]).
  assert (A2 : nth_error (cops w1) j = Some b) by (rewrite E1, nth_error_upd; destruct (j =? i); [destruct (Nat.ltb_spec i (length (cops w))); [reflexivity|lia]|exact Hj]).
  assert (E2 : cops w2 = cops w1).
  { unfold w2. cbn [perform]. rewrite A1. destruct (length d =? length (arr w1 b)); [|reflexivity]. unfold install. destruct (_ =? _); reflexivity. }
  cbn [perform]. rewrite E2, A1, A2. reflexivity.
Qed.
Example C74_array_ex : snd (perform_all unit0 (wrap [1%Q] tt [0%Q]) [Copy 0; SetArray 1 0; Mutate 1 [2%Q]; Activate 0 [5%Q]]) = [Ok []; Ok []; Ok []; Ok [15%Q]] /\
  snd (ideal_all unit0 1 [{| o_params := [1%Q]; o_buf := tt; o_derivs := [0%Q] |}] [Copy 0; SetArray 1 0; Mutate 1 [2%Q]; Activate 0 [5%Q]]) = [Ok []; Ok []; Ok []; Ok [5%Q]].
Proof. split; vm_compute; reflexivity. Qed.

(** Copies of a masked module answer as independent ones if each is activated only while it is the one changed last. *)
Theorem C74_masked : forall f m os, own_turn 0 os -> Forall (fun r => exists x, r = Ok x) (snd (mideal_all f [m] os)) ->
  snd (mperform_all f {| container := applyMask m; objects := [m] |} os) = snd (mideal_all f [m] os).
Proof. intros f m os HT HE. apply (mrun f os 0 _ _ m); auto. Qed.

Definition m0 : masked := {| m_mask := [true; false]; m_vals := [1; 2]%Q; m_max := 2 |}.
Definition lin (p x : list Q) : list Q := [fold_right Qplus 0%Q (map (fun e => (fst e * snd e)%Q) (combine p x))].
Example C74_masked_ex : let os := [MActivate 0 [1; 1]%Q; MCopy 0; MTopologyMutate 1 [false; true] []; MActivate 1 [1; 1]%Q; MSetParameters 0 [4%Q]; MActivate 0 [1; 1]%Q] in
  own_turn 0 os /\ Forall (fun r => exists x, r = Ok x) (snd (mideal_all lin [m0] os)) /\
  snd (mperform_all lin {| container := applyMask m0; objects := [m0] |} os) = [Ok [1%Q]; Ok []; Ok []; Ok [3%Q]; Ok []; Ok [4%Q]].
Proof. cbv zeta. split; [repeat split|]. split; [vm_compute; repeat (constructor; [eexists; reflexivity|]); constructor|vm_compute; reflexivity]. Qed.

(** Otherwise it works with the parameters of the copy changed last: whichever copy is activated, the answer is the same.
    A hill climber that evaluates its best individual again after a challenger (hillclimber.py:19-25) evaluates the challenger. *)
Theorem C74_masked_refuted : forall f m d x, let w := {| container := applyMask m; objects := [m] |} in
  snd (mperform_all f w [MCopy 0; MMutate 1 d; MActivate 1 x; MActivate 0 x]) =
  [Ok []; Ok []; Ok (f (applyMask (mutate d m)) x); Ok (f (applyMask (mutate d m)) x)] /\
  snd (mideal_all f [m] [MCopy 0; MMutate 1 d; MActivate 1 x; MActivate 0 x]) =
  [Ok []; Ok []; Ok (f (applyMask (mutate d m)) x); Ok (f (applyMask m) x)].
Proof. intros. split; reflexivity. Qed.
Example C74_masked_refuted_ex : lin (applyMask (mutate [1; 1]%Q m0)) [1; 1]%Q <> lin (applyMask m0) [1; 1]%Q.
Proof. vm_compute. discriminate. Qed.

Print Assumptions C74_stateless.
Print Assumptions C74_turns.
Print Assumptions C74_interleaved_refuted.
Print Assumptions C74_derivs_refuted.
Print Assumptions C74_array_refuted.
Print Assumptions C74_masked.
Print Assumptions C74_masked_refuted.
