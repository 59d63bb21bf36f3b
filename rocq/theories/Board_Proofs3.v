(** Proofs for C71: what the buffers of the networks receive. *)
From Coq Require Import Permutation Ring.
From Verif Require Import Base RingOps Net_Model Arch_Model Arch_Proofs Arch_Props Arch_Props2 Arch_Props3 Board_Model Board_Spec Board_Proofs Board_Proofs2.
From Verif Require Utilities_Model Utilities_Proofs.

Section Nets.
Context {K : Type} {Ops : RingOps K} {L : RingLaws K} (w : bwmother -> vec (K := K)).
Add Ring Kring2 : (@rlaws K Ops L).
Context (z : ssizes) (dims : list nat) (Hne : dims <> []).
Lemma units_nodup : NoDup (units dims).
Proof using Hne. apply (Utilities_Proofs.iterCombinations_ok dims Hne). Qed.
Lemma deliver_full {B Mo} (w' : Mo -> vec (K := K)) (c : gconn B Mo) V i m a b n : g_mother c = Some m -> g_inslice c = (a, a + n) -> g_outslice c = (b, snd (g_outslice c)) -> b <= i < snd (g_outslice c) ->
  deliver w' c V i = lin n (w' m) (fun j => V (g_in c) (a + j)) (i - b).
Proof using.
  intros E1 E2 E3 Hi. unfold deliver. rewrite E3, E2, E1. cbn [fst snd]. destruct (Nat.leb_spec b i); [|lia]. destruct (Nat.ltb_spec i (snd (g_outslice c))); [|lia]. cbn [andb].
  replace (a + n - a) with n by lia. reflexivity.
Qed.
Lemma deliver_none {B Mo} (w' : Mo -> vec (K := K)) (c : gconn B Mo) V i : ~ (fst (g_outslice c) <= i < snd (g_outslice c)) -> deliver w' c V i = r0.
Proof using.
  intro H. unfold deliver. destruct (Nat.leb_spec (fst (g_outslice c)) i); [|reflexivity]. destruct (Nat.ltb_spec i (snd (g_outslice c))); [|reflexivity]. exfalso. apply H. split; assumption.
Qed.
Section Swipe.
Context (symdims symdirs : bool).
Definition swipe_conns : list (gconn bbuf bwmother) :=
  flat_map (fun u => flat_map (fun s => map sconn_of (conns_of (sconns symdims symdirs z dims u s))) (seq 0 (2 ^ length dims))) (units dims).
Lemma map_flat {A B C} (f : B -> C) (F : A -> list B) l : map f (flat_map F l) = flat_map (fun a => map f (F a)) l.
Proof using. induction l as [|a l IH]; [reflexivity|]. cbn. rewrite map_app, IH. reflexivity. Qed.
Lemma sops_conns : map sconn_of (conns_of (sops symdims symdirs z dims)) = swipe_conns.
Proof using.
  unfold sops, swipe_conns. rewrite !conns_app, !conns_mods, !conns_flat. rewrite (flat_nil (fun a => conns_of (map _ _))) by (intro; apply conns_mods). cbn [app].
  rewrite map_flat. apply flat_map_ext. intro u. rewrite conns_flat, map_flat. reflexivity.
Qed.
Definition c_in u s : gconn bbuf bwmother := {| g_in := PIn; g_out := PHid u s; g_mother := Some (BSwipe MIn); g_inslice := (s_inoff z u, s_inoff z u + s_in z); g_outslice := (0, s_hin z) |}.
Definition c_out u s : gconn bbuf bwmother := {| g_in := PHid u s; g_out := POut; g_mother := Some (BSwipe MOut); g_inslice := (0, s_hout z); g_outslice := (s_outoff z u, s_outoff z u + s_out z) |}.
Definition c_hid u s d : gconn bbuf bwmother :=
  {| g_in := PHid (origin u s d) s; g_out := PHid u s; g_mother := Some (BSwipe (hconn symdims symdirs d (negb (Nat.testbit s d)))); g_inslice := (0, s_hout z); g_outslice := (0, s_hin z) |}.
Lemma sconns_sum (f : gconn bbuf bwmother -> K) u s : Forall2 lt u dims ->
  suml (map sconn_of (conns_of (sconns symdims symdirs z dims u s))) f =
  radd (f (c_in u s)) (radd (f (c_out u s)) (sumn (length dims) (fun d => if edge dims u s d then r0 else f (c_hid u s d)))).
Proof using L.
  intro Hu. unfold sconns. rewrite conns_app, map_app, suml_app. cbn [conns_of flat_map map suml app]. rewrite conns_flat, map_flat, suml_flat_map.
  rewrite <- suml_seq. rewrite (suml_ext (seq 0 (length dims)) _ (fun d => if edge dims u s d then r0 else f (c_hid u s d))).
  - unfold c_in, c_out, sconn_of. cbn [a_in a_out a_mother a_inslice a_outslice bufOf]. ring.
  - intros d Hd. apply in_seq in Hd. rewrite previous_edge by (try exact Hu; lia). destruct (edge dims u s d); [reflexivity|]. cbn [conns_of flat_map map suml app]. rewrite up_testbit. unfold c_hid, sconn_of.
    cbn [a_in a_out a_mother a_inslice a_outslice bufOf]. ring.
Qed.
Lemma if_true (b : bool) (x y : K) : b = true -> (if b then x else y) = x.
Proof using. intros ->. reflexivity. Qed.
Lemma if_false (b : bool) (x y : K) : b = false -> (if b then x else y) = y.
Proof using. intros ->. reflexivity. Qed.
Lemma eqb_refl' b : bbuf_eqb b b = true.
Proof using. destruct (bbuf_eqb_spec b b); congruence. Qed.
Lemma eqb_ne a b : a <> b -> bbuf_eqb a b = false.
Proof using. intro H. destruct (bbuf_eqb_spec a b); congruence. Qed.
Lemma swipe_hid V u s i : Forall2 lt u dims -> s < 2 ^ length dims -> i < s_hin z ->
  suml swipe_conns (fun c => if bbuf_eqb (g_out c) (PHid u s) then deliver w c V i else r0) =
  radd (lin (s_in z) (w (BSwipe MIn)) (fun k => V PIn (s_inoff z u + k)) i)
       (sumn (length dims) (fun d => if edge dims u s d then r0 else lin (s_hout z) (w (BSwipe (hconn symdims symdirs d (negb (Nat.testbit s d))))) (V (PHid (origin u s d) s)) i)).
Proof using L Hne.
  intros Hu Hs Hi. unfold swipe_conns. rewrite suml_flat_map. rewrite (suml_single (list_eq_dec Nat.eq_dec) (units dims) u); [|apply units_nodup|apply unit_iff; assumption|].
  - rewrite suml_flat_map. rewrite (suml_single Nat.eq_dec (seq 0 (2 ^ length dims)) s); [|apply seq_NoDup|apply in_seq; lia|].
    + rewrite sconns_sum by exact Hu. cbn [g_out c_in c_out c_hid]. rewrite eqb_refl'. cbn [bbuf_eqb].
      rewrite (deliver_full w (c_in u s) V i (BSwipe MIn) (s_inoff z u) 0 (s_in z)) by (try reflexivity; cbn; lia). rewrite Nat.sub_0_r. cbn [g_in c_in].
      rewrite (Radd_0_l rlaws). f_equal. apply sumn_ext. intros d Hd. destruct (edge dims u s d); [reflexivity|].
      rewrite (deliver_full w (c_hid u s d) V i _ 0 0 (s_hout z)) by (try reflexivity; cbn; lia). rewrite Nat.sub_0_r. reflexivity.
    + intros s' _ Hns. rewrite sconns_sum by exact Hu. cbn [g_out c_in c_out c_hid]. rewrite eqb_ne by congruence. cbn [bbuf_eqb]. rewrite sumn_zero'; [ring|]. intros d _. destruct (edge dims u s' d); reflexivity.
  - intros u' Hu' Hnu. apply unit_iff in Hu'; [|exact Hne]. rewrite suml_flat_map. apply suml_zero. intros s' _. rewrite sconns_sum by exact Hu'. cbn [g_out c_in c_out c_hid]. rewrite eqb_ne by congruence. cbn [bbuf_eqb].
    rewrite sumn_zero'; [ring|]. intros d _. destruct (edge dims u' s' d); reflexivity.
Qed.
Lemma swipe_out V u k : Forall2 lt u dims -> k < s_out z -> disjoint_views dims (s_out z) (s_outoff z) ->
  suml swipe_conns (fun c => if bbuf_eqb (g_out c) POut then deliver w c V (s_outoff z u + k) else r0) =
  sumn (2 ^ length dims) (fun s => lin (s_hout z) (w (BSwipe MOut)) (V (PHid u s)) k).
Proof using L Hne.
  intros Hu Hk HD. unfold swipe_conns. rewrite suml_flat_map. rewrite (suml_single (list_eq_dec Nat.eq_dec) (units dims) u); [|apply units_nodup|apply unit_iff; assumption|].
  - rewrite suml_flat_map, suml_seq. apply sumn_ext. intros s Hs. rewrite sconns_sum by exact Hu. cbn [g_out c_in c_out c_hid bbuf_eqb].
    rewrite (deliver_full w (c_out u s) V _ (BSwipe MOut) 0 (s_outoff z u) (s_hout z)) by (try reflexivity; cbn; lia). replace (s_outoff z u + k - s_outoff z u) with k by lia.
    rewrite sumn_zero'; [transitivity (radd r0 (radd (lin (s_hout z) (w (BSwipe MOut)) (V (PHid u s)) k) r0)); [reflexivity|ring]|]. intros d _. destruct (edge dims u s d); reflexivity.
  - intros u' Hu' Hnu. apply unit_iff in Hu'; [|exact Hne]. rewrite suml_flat_map. apply suml_zero. intros s' _. rewrite sconns_sum by exact Hu'. cbn [g_out c_in c_out c_hid bbuf_eqb].
    rewrite deliver_none; [rewrite sumn_zero'; [ring|]; intros d _; destruct (edge dims u' s' d); reflexivity|].
    cbn [g_outslice c_out fst snd]. intro Hx. apply Hnu. symmetry. apply (HD u u' k (s_outoff z u + k - s_outoff z u')); try assumption; lia.
Qed.
End Swipe.
Section Border.
Context (simple symdims : bool) (pre : nat -> bdict).
Lemma border_hid V u s i : Forall2 lt u dims -> s < 2 ^ length dims -> i < s_hin z ->
  suml (bborder_conns simple symdims z dims pre) (fun c : gconn bbuf bwmother => if bbuf_eqb (g_out c) (PHid u s) then deliver w c V i else r0) =
  sumn (length dims) (fun d => if edge dims u s d then rmul (w (mother_of simple symdims dims pre d u) i) (V PBias 0) else r0).
Proof using L Hne.
  intros Hu Hs Hi. unfold bborder_conns. rewrite suml_flat_map, suml_seq. apply sumn_ext. intros d Hd. rewrite suml_flat_map.
  rewrite (suml_single (list_eq_dec Nat.eq_dec) (units dims) u); [|apply units_nodup|apply unit_iff; assumption|].
  - rewrite suml_map. cbn [g_out]. destruct (edge dims u s d) eqn:E.
    + apply (hunits_in dims d u s Hs) in E. rewrite (suml_single Nat.eq_dec (hunits dims d u) s); [|apply hunits_nodup|exact E|intros s' _ Hn; apply if_false, eqb_ne; congruence].
      rewrite eqb_refl'. rewrite (deliver_full w _ V i (mother_of simple symdims dims pre d u) 0 0 1) by (try reflexivity; cbn; lia). unfold lin. cbn [sumn g_in Nat.add]. rewrite Nat.sub_0_r, Nat.mul_1_r, Nat.add_0_r. ring.
    + apply suml_zero. intros s' Hs'. apply if_false, eqb_ne. intro X. assert (s' = s) by congruence. subst s'. apply (hunits_in dims d u s Hs) in Hs'. congruence.
  - intros u' _ Hn. rewrite suml_map. apply suml_zero. intros s' _. cbn [g_out]. apply if_false, eqb_ne. congruence.
Qed.
Lemma border_out V i : suml (bborder_conns simple symdims z dims pre) (fun c : gconn bbuf bwmother => if bbuf_eqb (g_out c) POut then deliver w c V i else r0) = r0.
Proof using L.
  unfold bborder_conns. rewrite suml_flat_map. apply suml_zero. intros d _. rewrite suml_flat_map. apply suml_zero. intros u _. rewrite suml_map. apply suml_zero. reflexivity.
Qed.
End Border.
Lemma direct_hid V u s i : suml (directlink z dims) (fun c => if bbuf_eqb (g_out c) (PHid u s) then deliver w c V i else r0) = r0.
Proof using L. unfold directlink. rewrite suml_map. apply suml_zero. reflexivity. Qed.
Lemma direct_out V u k : Forall2 lt u dims -> k < s_out z -> disjoint_views dims (s_out z) (s_outoff z) ->
  suml (directlink z dims) (fun c => if bbuf_eqb (g_out c) POut then deliver w c V (s_outoff z u + k) else r0) = lin (s_in z) (w BDirect) (fun j => V PIn (s_inoff z u + j)) k.
Proof using L Hne.
  intros Hu Hk HD. unfold directlink. rewrite suml_map. cbn [g_out bbuf_eqb].
  rewrite (suml_single (list_eq_dec Nat.eq_dec) _ u); [|apply units_nodup|apply unit_iff; assumption|].
  - rewrite (deliver_full w _ V _ BDirect (s_inoff z u) (s_outoff z u) (s_in z)) by (try reflexivity; cbn; lia). replace (s_outoff z u + k - s_outoff z u) with k by lia. reflexivity.
  - intros u' Hu' Hnu. apply unit_iff in Hu'; [|exact Hne]. apply deliver_none. cbn [g_outslice fst snd]. intro Hx. apply Hnu. symmetry. apply (HD u u' k (s_outoff z u + k - s_outoff z u')); try assumption; lia.
Qed.

(** ** solutions are sweeps *)
Context (g : vec (K := K) -> vec (K := K)) (h : K -> K).
Context (Hg : forall a b, (forall i, i < s_hin z -> a i = b i) -> forall j, j < s_hout z -> g a j = g b j).
Definition zeros : vec (K := K) := fun _ => r0.
Definition border_weights (direct simple symdims : bool) (pre : nat -> bdict) : @sweep_weights K :=
  {| sw_in := w (BSwipe MIn); sw_hid := fun d down => w (BSwipe (hconn symdims true d (negb down))); sw_border := fun d u => w (mother_of simple symdims dims pre d u);
     sw_out := w (BSwipe MOut); sw_direct := if direct then w BDirect else zeros |}.
Definition plain_weights (symdims symdirs : bool) : @sweep_weights K :=
  {| sw_in := w (BSwipe MIn); sw_hid := fun d down => w (BSwipe (hconn symdims symdirs d (negb down))); sw_border := fun _ _ => zeros; sw_out := w (BSwipe MOut); sw_direct := zeros |}.
Definition inputs (X : vec (K := K)) (u : list nat) : vec (K := K) := fun k => X (s_inoff z u + k).
Lemma lin_zeros n (x : vec (K := K)) i : lin n zeros x i = r0.
Proof using L. apply sumn_zero'. intros. unfold zeros. ring. Qed.
Lemma capture_hid (direct simple symdims : bool) pre V u s i : V PBias 0 = r1 -> Forall2 lt u dims -> s < 2 ^ length dims -> i < s_hin z ->
  received bbuf_eqb w ((swipe_conns symdims true ++ bborder_conns simple symdims z dims pre) ++ (if direct then directlink z dims else [])) V (PHid u s) i =
  radd (lin (s_in z) (w (BSwipe MIn)) (inputs (V PIn) u) i)
    (sumn (length dims) (fun d => if edge dims u s d then w (mother_of simple symdims dims pre d u) i
       else lin (s_hout z) (w (BSwipe (hconn symdims true d (negb (Nat.testbit s d))))) (V (PHid (origin u s d) s)) i)).
Proof using L Hne.
  intros HB Hu Hs Hi. unfold received. rewrite !suml_app, swipe_hid, border_hid by assumption.
  replace (suml (if direct then directlink z dims else []) (fun c : gconn bbuf bwmother => if bbuf_eqb (g_out c) (PHid u s) then deliver w c V i else r0)) with (@r0 K Ops) by (destruct direct; [symmetry; apply direct_hid|reflexivity]).
  unfold inputs. match goal with |- radd (radd (radd ?a ?b) ?c) r0 = radd ?a ?d => assert (E : radd b c = d) end.
  - rewrite <- sumn_add. apply sumn_ext. intros d Hd. rewrite HB. destruct (edge dims u s d); ring.
  - rewrite <- E. ring.
Qed.
Lemma capture_out (direct simple symdims : bool) pre V u k : Forall2 lt u dims -> k < s_out z -> disjoint_views dims (s_out z) (s_outoff z) ->
  received bbuf_eqb w ((swipe_conns symdims true ++ bborder_conns simple symdims z dims pre) ++ (if direct then directlink z dims else [])) V POut (s_outoff z u + k) =
  radd (sumn (2 ^ length dims) (fun s => lin (s_hout z) (w (BSwipe MOut)) (V (PHid u s)) k)) (lin (s_in z) (if direct then w BDirect else zeros) (inputs (V PIn) u) k).
Proof using L Hne.
  intros Hu Hk HD. unfold received. rewrite !suml_app, swipe_out, border_out by assumption.
  replace (suml (if direct then directlink z dims else []) (fun c : gconn bbuf bwmother => if bbuf_eqb (g_out c) POut then deliver w c V (s_outoff z u + k) else r0))
    with (lin (s_in z) (if direct then w BDirect else zeros) (inputs (V PIn) u) k); [ring|]. destruct direct; [symmetry; apply direct_out; assumption|apply lin_zeros].
Qed.
Lemma plain_hid symdims symdirs V u s i : Forall2 lt u dims -> s < 2 ^ length dims -> i < s_hin z ->
  received bbuf_eqb w (swipe_conns symdims symdirs) V (PHid u s) i =
  radd (lin (s_in z) (w (BSwipe MIn)) (inputs (V PIn) u) i)
    (sumn (length dims) (fun d => if edge dims u s d then zeros i else lin (s_hout z) (w (BSwipe (hconn symdims symdirs d (negb (Nat.testbit s d))))) (V (PHid (origin u s d) s)) i)).
Proof using L Hne. intros Hu Hs Hi. unfold received. rewrite swipe_hid by assumption. reflexivity. Qed.
Definition sizes_ok : Prop := (forall d, In d dims -> 1 < d) /\ (0 < s_in z /\ 0 < s_out z /\ 0 < s_hin z /\ 0 < s_hout z).
Lemma capture_ok (direct simple symdims : bool) pre : sizes_ok ->
  capturenet direct simple symdims z dims pre = Ok ((swipe_conns symdims true ++ bborder_conns simple symdims z dims pre) ++ (if direct then directlink z dims else [])).
Proof using Hne.
  intros [S1 S2]. unfold capturenet, borderswiping. rewrite (sw_eq symdims true z dims Hne S1 S2). cbn [rbind]. rewrite bborder_ok by exact Hne. cbn [rbind]. rewrite sops_conns. reflexivity.
Qed.
Lemma plain_ok symdims symdirs : sizes_ok -> swipingnet symdims symdirs z dims = Ok (swipe_conns symdims symdirs).
Proof using Hne. intros [S1 S2]. unfold swipingnet. rewrite (sw_eq symdims symdirs z dims Hne S1 S2). cbn [rbind]. rewrite sops_conns. reflexivity. Qed.
(** a solution, given a sweep *)
Definition solution (cs : list (gconn bbuf bwmother)) (X : vec (K := K)) (H : list nat -> nat -> vec (K := K)) : bbuf -> vec (K := K) :=
  let V0 := fun b => match b with PIn => X | PBias => fun _ => r1 | PHid u s => H u s | POut => zeros end in
  fun b => match b with POut => fun i => h (received bbuf_eqb w cs V0 POut i) | _ => V0 b end.
Lemma deliver_same {B Mo} (w' : Mo -> vec (K := K)) (c : gconn B Mo) V1 V2 i : V1 (g_in c) = V2 (g_in c) -> deliver w' c V1 i = deliver w' c V2 i.
Proof using. intro E. unfold deliver. rewrite E. reflexivity. Qed.
Lemma solution_received cs X H b i : (forall c, In c cs -> g_in c <> POut) -> 
  received bbuf_eqb w cs (solution cs X H) b i = received bbuf_eqb w cs (fun b => match b with PIn => X | PBias => fun _ => r1 | PHid u s => H u s | POut => zeros end) b i.
Proof using.
  intro HN. apply suml_ext. intros c Hc. destruct (bbuf_eqb (g_out c) b); [|reflexivity]. apply deliver_same. specialize (HN c Hc). destruct (g_in c); try reflexivity. congruence.
Qed.
End Nets.
