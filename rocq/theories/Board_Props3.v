(** C71: convolutional networks, on a board as it is and on a padded one. *)
From Coq Require Import Ring.
From Verif Require Import Base RingOps Net_Model Net_Props Arch_Model Arch_Proofs Arch_Props Arch_Props2 Arch_Props3 Board_Model Board_Spec Board_Proofs Board_Proofs2 Board_Proofs3.

Lemma pos_unique n a b c d : b < n -> d < n -> a * n + b = c * n + d -> a = c /\ b = d.
Proof. intros Hb Hd E. assert (a = c) by nia. split; [assumption|]. subst. lia. Qed.
Section Conv.
Context {K : Type} {Ops : RingOps K} {L : RingLaws K} (w : option cmother -> vec (K := K)) (th sg : K -> K).
Add Ring Kring3 : (@rlaws K Ops L).
Section Window.
Context (inputdim insize convSize features : nat) (inb : cbuf).
Let outdim := insize - convSize + 1.
Definition cv_out i j : gconn cbuf (option cmother) :=
  {| g_in := CHid; g_out := COut; g_mother := Some (Some None); g_inslice := ((i * outdim + j) * features, (i * outdim + j + 1) * features); g_outslice := (i * outdim + j, i * outdim + j + 1) |}.
Definition cv_in i j k : gconn cbuf (option cmother) :=
  {| g_in := inb; g_out := CHid; g_mother := Some (Some (Some k)); g_inslice := ((insize * (i + k) + j) * inputdim, (insize * (i + k) + j) * inputdim + convSize * inputdim);
     g_outslice := ((i * outdim + j) * features, (i * outdim + j + 1) * features) |}.
Definition cv_conns : list (gconn cbuf (option cmother)) := flat_map (fun i => flat_map (fun j => cv_out i j :: map (cv_in i j) (seq 0 convSize)) (seq 0 outdim)) (seq 0 outdim).
Lemma conv_conns : map (conv_of inb) (conns_of (cops inputdim insize convSize features)) = cv_conns.
Proof using.
  unfold cops, cv_conns. rewrite conns_app, conns_mods, conns_flat. cbn [app]. rewrite map_flat. apply flat_map_ext. intro i. rewrite conns_flat, map_flat. apply flat_map_ext. intro j.
  unfold cconns. cbv zeta. cbn [conns_of flat_map map app]. f_equal. fold outdim. generalize (seq 0 convSize) as l. induction l as [|k l IH]; [reflexivity|]. cbn [map conns_of flat_map app]. f_equal. exact IH.
Qed.
Lemma cv_sum (f : gconn cbuf (option cmother) -> K) : suml cv_conns f = sumn outdim (fun i => sumn outdim (fun j => radd (f (cv_out i j)) (sumn convSize (fun k => f (cv_in i j k))))).
Proof using L.
  unfold cv_conns. rewrite suml_flat_map, suml_seq. apply sumn_ext. intros i _. rewrite suml_flat_map, suml_seq. apply sumn_ext. intros j _. cbn [suml]. rewrite suml_map, suml_seq. ring.
Qed.
Lemma conv_out V i j : i < outdim -> j < outdim -> received cbuf_eqb w cv_conns V COut (i * outdim + j) = sumn features (fun f => rmul (w (Some None) f) (V CHid ((i * outdim + j) * features + f))).
Proof using L.
  intros Hi' Hj. unfold received. rewrite cv_sum. rewrite (sumn_single outdim i); [|exact Hi'|].
  - rewrite (sumn_single outdim j); [|exact Hj|].
    + cbn [cv_out cv_in g_out cbuf_eqb]. rewrite sumn_zero' by reflexivity. rewrite (deliver_full w (cv_out i j) V _ (Some None) ((i * outdim + j) * features) (i * outdim + j) features); [|reflexivity|cbn; f_equal; lia|reflexivity|cbn; lia].
      rewrite Nat.sub_diag. unfold lin. cbn [g_in cv_out Nat.mul Nat.add]. ring.
    + intros j' Hj' N. cbn [cv_out cv_in g_out cbuf_eqb]. rewrite sumn_zero' by reflexivity. rewrite deliver_none; [ring|]. cbn [cv_out g_outslice fst snd]. lia.
  - intros i' Hi2 N. apply sumn_zero'. intros j' Hj'. cbn [cv_out cv_in g_out cbuf_eqb]. rewrite sumn_zero' by reflexivity. rewrite deliver_none; [ring|]. cbn [cv_out g_outslice fst snd]. intro X.
    destruct (pos_unique outdim i j i' j' Hj Hj' ltac:(lia)). congruence.
Qed.
Lemma conv_hid V i j f : i < outdim -> j < outdim -> f < features -> received cbuf_eqb w cv_conns V CHid ((i * outdim + j) * features + f) =
  sumn convSize (fun k => sumn convSize (fun l => sumn inputdim (fun ch => rmul (w (Some (Some k)) ((f * convSize + l) * inputdim + ch)) (V inb (((i + k) * insize + (j + l)) * inputdim + ch))))).
Proof using L.
  intros Hi' Hj Hf. unfold received. rewrite cv_sum. rewrite (sumn_single outdim i); [|exact Hi'|].
  - rewrite (sumn_single outdim j); [|exact Hj|].
    + cbn [cv_out cv_in g_out cbuf_eqb]. rewrite (Radd_0_l rlaws). apply sumn_ext. intros k Hk.
      rewrite (deliver_full w (cv_in i j k) V _ (Some (Some k)) ((insize * (i + k) + j) * inputdim) ((i * outdim + j) * features) (convSize * inputdim)); [|reflexivity|reflexivity|reflexivity|cbn; lia].
      unfold lin. rewrite sumn_flat. apply sumn_ext. intros l Hl. apply sumn_ext. intros ch Hc. cbn [g_in cv_in]. f_equal; f_equal; lia.
    + intros j' Hj' N. cbn [cv_out cv_in g_out cbuf_eqb]. rewrite (Radd_0_l rlaws). apply sumn_zero'. intros k Hk. apply deliver_none. cbn [cv_in g_outslice fst snd]. intro X. apply N. nia.
  - intros i' Hi2 N. apply sumn_zero'. intros j' Hj'. cbn [cv_out cv_in g_out cbuf_eqb]. rewrite (Radd_0_l rlaws). apply sumn_zero'. intros k Hk. apply deliver_none. cbn [cv_in g_outslice fst snd]. intro X.
    destruct (pos_unique outdim i j i' j' Hj Hj'); [nia|congruence].
Qed.
Lemma conv_rest V i b : b = CPad \/ b = CIn \/ b = CBias -> received cbuf_eqb w cv_conns V b i = r0.
Proof using L. intro Hb. unfold received. rewrite cv_sum. apply sumn_zero'. intros a _. apply sumn_zero'. intros j _. destruct Hb as [->|[->| ->]]; cbn [cv_out cv_in g_out cbuf_eqb]; rewrite sumn_zero' by reflexivity; ring. Qed.
Lemma conv_field cs V : (forall b i, b = CHid \/ b = COut -> received cbuf_eqb w cs V b i = received cbuf_eqb w cv_conns V b i) ->
  (forall i, V CHid i = th (received cbuf_eqb w cs V CHid i)) -> (forall i, V COut i = sg (received cbuf_eqb w cs V COut i)) -> forall i j, i < outdim -> j < outdim ->
  V COut (i * outdim + j) = convolved inputdim convSize features (fun k => w (Some (Some k))) (w (Some None)) th sg (fun r c ch => V inb ((r * insize + c) * inputdim + ch)) i j.
Proof using L.
  intros E EH EO i j Hi' Hj. rewrite EO, E by (right; reflexivity). rewrite conv_out by assumption. unfold convolved. f_equal. apply sumn_ext. intros f Hf. f_equal. rewrite EH, E by (left; reflexivity). rewrite conv_hid by assumption. reflexivity.
Qed.
End Window.
(** a solution, layer by layer *)
Definition layered (padded : bool) (cs : list (gconn cbuf (option cmother))) (X : vec (K := K)) : cbuf -> vec (K := K) :=
  let V0 := fun b => match b with CIn => X | CBias => fun _ => r1 | _ => fun _ => r0 end in
  let V1 := fun b => match b with CPad => if padded then received cbuf_eqb w cs V0 CPad else fun _ => r0 | _ => V0 b end in
  let V2 := fun b => match b with CHid => fun i => th (received cbuf_eqb w cs V1 CHid i) | _ => V1 b end in
  fun b => match b with COut => fun i => sg (received cbuf_eqb w cs V2 COut i) | _ => V2 b end.
Definition forward (cs : list (gconn cbuf (option cmother))) : Prop := forall c, In c cs ->
  match g_out c with CPad => g_in c = CIn \/ g_in c = CBias | CHid => g_in c = CIn \/ g_in c = CPad | COut => g_in c = CHid | _ => False end.
Lemma layered_solves padded cs X : forward cs -> csolves w th sg padded cs X (layered padded cs X).
Proof using.
  intro F. assert (Y : forall b V1 V2 i, (forall c, In c cs -> g_out c = b -> V1 (g_in c) = V2 (g_in c)) -> received cbuf_eqb w cs V1 b i = received cbuf_eqb w cs V2 b i).
  { intros b V1 V2 i H. apply suml_ext. intros c Hc. destruct (cbuf_eqb (g_out c) b) eqn:E; [|reflexivity]. apply deliver_same. apply H; [exact Hc|]. destruct (g_out c), b; cbn in E; try discriminate; reflexivity. }
  split; [reflexivity|]. split; [reflexivity|]. split; [|split].
  - intros -> i. unfold layered. cbv zeta. apply Y. intros c Hc E. specialize (F c Hc). rewrite E in F. destruct F as [->| ->]; reflexivity.
  - intro i. unfold layered. cbv zeta. f_equal. apply Y. intros c Hc E. specialize (F c Hc). rewrite E in F. destruct F as [->| ->]; reflexivity.
  - intro i. unfold layered. cbv zeta. f_equal. apply Y. intros c Hc E. specialize (F c Hc). rewrite E in F. rewrite F. reflexivity.
Qed.
Lemma cv_forward inputdim insize convSize features inb : inb = CIn \/ inb = CPad -> forward (cv_conns inputdim insize convSize features inb).
Proof using.
  intros Hi c Hc. unfold cv_conns in Hc. apply in_flat_map in Hc as (i & _ & Hc). apply in_flat_map in Hc as (j & _ & Hc). destruct Hc as [<-|Hc]; [reflexivity|]. apply in_map_iff in Hc as (k & <- & _). exact Hi.
Qed.
(** every output is the convolution at its place *)
Theorem C71_convolution inputdim insize convSize features : 1 <= inputdim -> 1 <= features -> 1 <= convSize -> convSize < insize -> exists cs, convnet inputdim insize convSize features = Ok cs /\
  forall X, (exists V, csolves w th sg false cs X V) /\ forall V, csolves w th sg false cs X V -> let outdim := insize - convSize + 1 in forall i j, i < outdim -> j < outdim ->
  V COut (i * outdim + j) = convolved inputdim convSize features (fun k => w (Some (Some k))) (w (Some None)) th sg (fun r c ch => X ((r * insize + c) * inputdim + ch)) i j.
Proof using L.
  intros H1 H2 H3 H4. unfold convnet. rewrite conv_eq by assumption. cbn [rbind]. rewrite conv_conns. eexists. split; [reflexivity|]. intro X. split.
  - eexists. apply layered_solves. apply cv_forward. left. reflexivity.
  - intros V (E1 & _ & _ & E3 & E4) i j Hi Hj. rewrite <- E1. apply (conv_field inputdim insize convSize features CIn _ V) with (1 := fun b i _ => eq_refl); assumption.
Qed.

(** ** the padded board *)
Context (b convSize features : nat) (Hb : 2 <= b) (Hc : 2 <= convSize).
Let x := padding convSize.
Let insize := paddedSize b convSize.
Lemma sizes : convSize < insize /\ insize - convSize + 1 = b /\ x + b <= insize /\ padded_xs b convSize = seq 0 x ++ seq (x + b) (insize - (x + b)).
Proof using Hb Hc.
  unfold padded_xs. fold x. fold insize. unfold insize, paddedSize. fold x. unfold x, padding. pose proof (Nat.div_mod convSize 2 ltac:(lia)) as D. pose proof (Nat.mod_upper_bound convSize 2 ltac:(lia)) as M.
  set (q := convSize / 2) in *. destruct (Nat.eqb_spec (convSize mod 2) 0) as [E|E].
  - split; [lia|]. split; [lia|]. split; [lia|]. f_equal. f_equal; lia.
  - split; [lia|]. split; [lia|]. split; [lia|]. f_equal. f_equal; lia.
Qed.
Lemma xs_in c : In c (padded_xs b convSize) <-> c < insize /\ ~ (x <= c < x + b).
Proof using Hb Hc. destruct sizes as (_ & _ & S3 & ->). rewrite in_app_iff, !in_seq. lia. Qed.
Lemma xs_nodup : NoDup (padded_xs b convSize).
Proof using Hb Hc. destruct sizes as (_ & _ & S3 & ->). apply nodup_app; [apply seq_NoDup|apply seq_NoDup|]. intros a Ha Hb'. apply in_seq in Ha, Hb'. lia. Qed.
Lemma prod_nodup {A B} (l : list A) (m : list B) : NoDup l -> NoDup m -> NoDup (list_prod l m).
Proof using.
  intros Hl Hm. induction Hl as [|a l Ha Hl IH]; [constructor|]. cbn [list_prod]. apply nodup_app; [apply FinFun.Injective_map_NoDup; [intros p q E; congruence|exact Hm]|exact IH|].
  intros [p q] H1 H2. apply in_map_iff in H1 as (y & E & _). injection E as -> _. apply in_prod_iff in H2 as [H2 _]. contradiction.
Qed.
Lemma paddable_in r c : In (r, c) (paddable b convSize) <-> r < insize /\ c < insize /\ ~ (x <= r < x + b /\ x <= c < x + b).
Proof using Hb Hc.
  unfold paddable. fold x. fold insize. rewrite in_app_iff, !in_prod_iff, !xs_in, !in_seq. destruct sizes as (_ & _ & S3 & _). lia.
Qed.
Lemma paddable_nodup : NoDup (paddable b convSize).
Proof using Hb Hc.
  unfold paddable. fold x. fold insize. apply nodup_app; [apply prod_nodup; [apply seq_NoDup|apply xs_nodup]|apply prod_nodup; [apply xs_nodup|apply seq_NoDup]|].
  intros [r c] A B. apply in_prod_iff in A as [_ A]. apply in_prod_iff in B as [_ B]. apply xs_in in A. apply in_seq in B. lia.
Qed.
Definition p_bias (ij : nat * nat) : gconn cbuf (option cmother) :=
  {| g_in := CBias; g_out := CPad; g_mother := Some None; g_inslice := (0, 1); g_outslice := ((fst ij * insize + snd ij) * 2, (fst ij * insize + snd ij + 1) * 2) |}.
Definition p_row (i : nat) : gconn cbuf (option cmother) :=
  {| g_in := CIn; g_out := CPad; g_mother := None; g_inslice := (i * b * 2, (i + 1) * b * 2); g_outslice := (((i + x) * insize + x) * 2, ((i + x) * insize + x + b) * 2) |}.
Definition p_conns : list (gconn cbuf (option cmother)) := map p_bias (paddable b convSize) ++ map p_row (seq 0 b) ++ cv_conns 2 insize convSize features CPad.
Lemma convboard_ok : 1 <= features -> convboard b convSize features = Ok p_conns.
Proof using Hb Hc.
  intro Hf. unfold convboard. cbv zeta. destruct (Nat.leb_spec convSize 1); [lia|]. destruct (Nat.eqb_spec b 1); [lia|]. fold x. fold insize. destruct sizes as (S1 & _). rewrite conv_eq by lia. cbn [rbind]. rewrite conv_conns. reflexivity.
Qed.
Lemma pair_dec (p q : nat * nat) : {p = q} + {p <> q}.
Proof using. decide equality; apply Nat.eq_dec. Qed.
Lemma pad_value V r c ch : V CBias 0 = r1 -> r < insize -> c < insize -> ch < 2 -> received cbuf_eqb w p_conns V CPad ((r * insize + c) * 2 + ch) = framed b x (V CIn) (w None) r c ch.
Proof using L Hb Hc.
  intros HB Hr Hcc Hch. unfold received, p_conns. rewrite !suml_app. change (suml (cv_conns 2 insize convSize features CPad) _) with (received cbuf_eqb w (cv_conns 2 insize convSize features CPad) V CPad ((r * insize + c) * 2 + ch)).
  rewrite conv_rest by (left; reflexivity). rewrite !suml_map. cbn [p_bias p_row g_out cbuf_eqb]. destruct sizes as (_ & _ & S3 & _).
  assert (BI : forall ij, In ij (paddable b convSize) -> ij <> (r, c) -> deliver w (p_bias ij) V ((r * insize + c) * 2 + ch) = r0).
  { intros [i j] Hin N. apply paddable_in in Hin as (A & B & _). apply deliver_none. cbn [p_bias g_outslice fst snd]. intro Z. apply N. destruct (pos_unique insize i j r c B Hcc) as [-> ->]; [lia|reflexivity]. }
  assert (RO : forall i, i < b -> ~ (r = i + x /\ x <= c < x + b) -> deliver w (p_row i) V ((r * insize + c) * 2 + ch) = r0).
  { intros i Hi N. apply deliver_none. cbn [p_row g_outslice fst snd]. intros [Z1 Z2]. apply N. assert (ER : r = i + x).
    { destruct (Nat.lt_trichotomy r (i + x)) as [T|[T|T]]; [exfalso; nia|exact T|exfalso]. assert ((i + x) * insize + insize <= r * insize) by nia. nia. }
    split; [exact ER|]. subst r. lia. }
  unfold framed. destruct (Nat.leb_spec x r); destruct (Nat.ltb_spec r (x + b)); destruct (Nat.leb_spec x c); destruct (Nat.ltb_spec c (x + b)); cbn [andb].
  1: { rewrite suml_zero; [|intros ij Hin; apply BI; [exact Hin|intros ->; apply paddable_in in Hin; lia]]. rewrite (suml_single Nat.eq_dec (seq 0 b) (r - x)); [|apply seq_NoDup|apply in_seq; lia|intros i Hi N; apply in_seq in Hi; apply RO; lia].
       unfold deliver. cbn [p_row g_outslice g_inslice g_mother g_in fst snd]. replace (r - x + x) with r by lia. destruct (Nat.leb_spec ((r * insize + x) * 2) ((r * insize + c) * 2 + ch)); [|nia]. destruct (Nat.ltb_spec ((r * insize + c) * 2 + ch) ((r * insize + x + b) * 2)); [|nia]. cbn [andb].
       replace ((r - x) * b * 2 + ((r * insize + c) * 2 + ch - (r * insize + x) * 2)) with (((r - x) * b + (c - x)) * 2 + ch) by nia. ring. }
  all: rewrite (suml_single pair_dec _ (r, c)); [|apply paddable_nodup|apply paddable_in; lia|exact BI]; rewrite suml_zero by (intros i Hi; apply in_seq in Hi; apply RO; lia);
    rewrite (deliver_full w (p_bias (r, c)) V _ None 0 ((r * insize + c) * 2) 1); [|reflexivity|reflexivity|reflexivity|cbn; lia]; unfold lin; cbn [sumn p_bias g_in]; change (V CBias (0 + 0)) with (V CBias 0); rewrite HB;
    replace ((((r * insize + c) * 2 + ch) - (r * insize + c) * 2) * 1 + 0) with ch by lia; ring.
Qed.
Lemma rest_value V i q : q = CHid \/ q = COut -> received cbuf_eqb w p_conns V q i = received cbuf_eqb w (cv_conns 2 insize convSize features CPad) V q i.
Proof using L.
  intro Hq. unfold received, p_conns. rewrite !suml_app, !suml_map. rewrite (suml_zero (paddable b convSize)) by (intros a _; destruct Hq as [->| ->]; reflexivity). rewrite (suml_zero (seq 0 b)) by (intros a _; destruct Hq as [->| ->]; reflexivity). ring.
Qed.
(** one output for every field: the convolution of the board with a frame of trainable values *)
Theorem C71_convboard : 1 <= features -> exists cs, convboard b convSize features = Ok cs /\
  forall X, (exists V, csolves w th sg true cs X V) /\ forall V, csolves w th sg true cs X V -> forall i j, i < b -> j < b ->
  V COut (i * b + j) = convolved 2 convSize features (fun k => w (Some (Some k))) (w (Some None)) th sg (framed b (convSize / 2) X (w None)) i j.
Proof using L Hb Hc.
  intro Hf. exists p_conns. split; [apply convboard_ok; exact Hf|]. intro X. split.
  - eexists. apply layered_solves. intros c Hin. unfold p_conns in Hin. rewrite !in_app_iff, !in_map_iff in Hin. destruct Hin as [(a & <- & _)|[(a & <- & _)|Hin]]; [right; reflexivity|left; reflexivity|].
    apply (cv_forward 2 insize convSize features CPad); [right; reflexivity|exact Hin].
  - intros V (E1 & EB & E2 & E3 & E4) i j Hi Hj. destruct sizes as (S1 & S2 & S3 & _).
    assert (G := conv_field 2 insize convSize features CPad p_conns V (fun q n Hq => rest_value V n q Hq) E3 E4 i j). rewrite S2 in G. rewrite G by assumption. unfold convolved. f_equal. apply sumn_ext. intros f Hff. f_equal. f_equal.
    apply sumn_ext. intros k Hk. apply sumn_ext. intros l Hl. apply sumn_ext. intros ch Hch. f_equal. rewrite E2 by reflexivity. rewrite pad_value by (try assumption; lia). rewrite E1. reflexivity.
Qed.
End Conv.
(** a window of one field leaves nothing to pad, and fails; so does a board of one field *)
Theorem C71_convboard_refuted features : (forall b, convboard b 1 features = Err TypeError) /\ forall c, 2 <= c -> convboard 1 c features = Err AssertionError.
Proof. split; [reflexivity|]. intros c Hc. unfold convboard. cbv zeta. destruct (Nat.leb_spec c 1); [lia|reflexivity]. Qed.
Example ex_convboard : exists cs V, convboard 2 3 1 = Ok cs /\ csolves (K := Z) (fun m i => match m with None => 100 | Some None => 1 | Some (Some k) => Z.of_nat (S i) end)%Z (fun v => v) (fun v => v) true cs (fun i => Z.of_nat i) V
  /\ map (V COut) [0; 1; 2; 3] = [2836; 4380; 2836; 4380]%Z.
Proof.
  eexists. eexists. split; [reflexivity|]. split; [apply layered_solves|vm_compute; reflexivity].
  intros c Hin. revert c Hin. apply Forall_forall. vm_compute. repeat (constructor; [tauto|]). constructor.
Qed.
Print Assumptions C71_convolution.
Print Assumptions C71_convboard.
Print Assumptions C71_convboard_refuted.
