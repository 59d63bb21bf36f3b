(** Property C87 (small tools): data files, resampling, file names, keyword arguments. *)
From Verif Require Import Base Tools_Model Tools_Spec.
From Coq Require Import QArith Reals Lra.
Local Open Scope nat_scope.

(** ** Sparse rows *)
Lemma nth_repeat0 n k : nth k (repeat 0%Q n) 0%Q = 0%Q.
Proof. revert k. induction n as [| n IH]; intros [| k]; cbn [repeat nth]; auto. Qed.
Lemma features_spec l : forall feat nextidx, (1 <= nextidx)%Z -> length feat = Z.to_nat (nextidx - 1) -> ascending nextidx l ->
  (forall k, (1 <= k < nextidx)%Z -> nth (Z.to_nat (k - 1)) (features feat nextidx l) 0%Q = nth (Z.to_nat (k - 1)) feat 0%Q) /\
  (forall k, (nextidx <= k)%Z -> nth (Z.to_nat (k - 1)) (features feat nextidx l) 0%Q = value_of l k) /\
  length (features feat nextidx l) = Z.to_nat (fold_left (fun _ e => fst e) l (nextidx - 1)%Z).
Proof.
  induction l as [| [i v] l IH]; intros feat nextidx H1 L A; cbn [features value_of fold_left].
  - split; [auto |]. split; [| exact L]. intros k Hk. apply nth_overflow. lia.
  - destruct A as [A1 A2]. set (feat' := feat ++ repeat 0%Q (Z.to_nat (i - nextidx)) ++ [v]).
    assert (L' : length feat' = Z.to_nat (i + 1 - 1)) by (unfold feat'; rewrite !app_length, repeat_length; cbn [length]; lia).
    destruct (IH feat' (i + 1)%Z ltac:(lia) L' A2) as (I1 & I2 & I3). split; [| split].
    + intros k Hk. rewrite I1 by lia. unfold feat'. apply app_nth1. lia.
    + intros k Hk. destruct (Z.eqb_spec i k) as [-> | N].
      * rewrite I1 by lia. unfold feat'. rewrite app_nth2 by lia. rewrite app_nth2 by (rewrite repeat_length; lia). rewrite repeat_length, L.
        replace (Z.to_nat (k - 1) - Z.to_nat (nextidx - 1) - Z.to_nat (k - nextidx)) with 0 by lia. reflexivity.
      * destruct (Z.lt_ge_cases k i) as [K | K].
        -- rewrite I1 by lia. unfold feat'. rewrite app_nth2 by lia. rewrite app_nth1 by (rewrite repeat_length; lia). rewrite nth_repeat0.
           assert (B : forall l lo, ascending lo l -> (k < lo)%Z -> value_of l k = 0%Q).
           { clear. induction l as [| [j w] l IH]; intros lo A B; [reflexivity |]. destruct A as [A1 A2]. cbn [value_of]. destruct (Z.eqb_spec j k); [lia |]. apply (IH (j + 1)%Z); [auto | lia]. }
           symmetry. apply (B l (i + 1)%Z); [auto | lia].
        -- apply I2. lia.
    + rewrite I3. cbn [fst]. f_equal. f_equal. lia.
Qed.
(** a row whose indices go up, from 1 on, is read as it stands, with zeros in between *)
Theorem C87_sparse l k : ascending 1 l -> (1 <= k)%Z -> nth (Z.to_nat (k - 1)) (features [] 1 l) 0%Q = value_of l k.
Proof. intros A K. destruct (features_spec l [] 1%Z ltac:(lia) eq_refl A) as (_ & H & _). now apply H. Qed.
Theorem C87_sparse_length l : ascending 1 l -> length (features [] 1 l) = Z.to_nat (fold_left (fun _ e => fst e) l 0%Z).
Proof. intros A. destruct (features_spec l [] 1%Z ltac:(lia) eq_refl A) as (_ & _ & H). exact H. Qed.
(** an index that does not go up is silently taken for the one after the index before *)
Theorem C87_sparse_refuted a b v w : (1 <= b <= a)%Z -> nth (Z.to_nat a) (features [] 1 [(a, v); (b, w)]) 0%Q = w.
Proof.
  intros H. cbn [features app]. replace (Z.to_nat (b - (a + 1))) with 0 by lia. cbn [repeat app]. rewrite app_nth2; rewrite app_length, repeat_length; cbn [length]; [| lia].
  replace (Z.to_nat a - (Z.to_nat (a - 1) + 1)) with 0 by lia. reflexivity.
Qed.
(** every row gets the same length, that of the longest; short ones end in zeros *)
Lemma readLines_spec l : forall x y n, Forall (fun e => e <> None) l -> Forall (fun r => length r <= n) x ->
  exists x' n', readLines x y n l = Ok (x ++ x', y ++ map (fun e => match e with Some (c, _) => c | None => 0%Q end) l, n') /\
    x' = map (fun e => match e with Some (_, fs) => features [] 1 fs | None => [] end) l /\ Forall (fun r => length r <= n') (x ++ x') /\ n <= n' /\
    (n' = n \/ exists r, In r x' /\ length r = n').
Proof.
  induction l as [| [[c fs] |] l IH]; intros x y n HN HX; cbn [readLines map].
  - exists [], n. rewrite !app_nil_r. auto 6.
  - inversion HN as [| ? ? _ HN']; subst. set (f := features [] 1 fs). set (n1 := if n <? length f then length f else n).
    assert (B : n <= n1 /\ length f <= n1) by (unfold n1; destruct (Nat.ltb_spec n (length f)); lia).
    destruct (IH (x ++ [f]) (y ++ [c]) n1 HN') as (x' & n' & E & X & F & Le & M).
    { apply Forall_app. split; [eapply Forall_impl; [| exact HX]; cbn beta; lia | constructor; [lia | constructor]]. }
    exists (f :: x'), n'. rewrite E, <- !app_assoc. cbn [app]. split; [reflexivity |]. split; [now rewrite X |]. split; [now rewrite <- app_assoc in F |]. split; [lia |].
    destruct M as [-> | (r & Hr & Lr)]; [| right; exists r; split; [now right | exact Lr]]. unfold n1. destruct (Nat.ltb_spec n (length f)); [right; exists f; split; [now left | reflexivity] | now left].
  - inversion HN; congruence.
Qed.
Theorem C87_load s l : l <> [] -> Forall (fun e => e <> None) l -> exists s' n, loadSVMdata s l = Ok s' /\
  sv_input s' = map (fun e => match e with Some (_, fs) => padded n (features [] 1 fs) | None => [] end) l /\
  sv_target s' = map (fun e => match e with Some (c, _) => c | None => 0%Q end) l /\
  Forall (fun r => length r = n) (sv_input s') /\ (n = 0 \/ exists c fs, In (Some (c, fs)) l /\ length (features [] 1 fs) = n).
Proof.
  intros Ne HN. unfold loadSVMdata. destruct (readLines_spec l [] [] 0 HN (Forall_nil _)) as (x & n & E & X & F & _ & M). cbn [app] in *. rewrite E. cbn [rbind].
  assert (Xp : map (padded n) x = map (fun e => match e with Some (_, fs) => padded n (features [] 1 fs) | None => [] end) l).
  { rewrite X, map_map. apply map_ext_in. intros [[c fs] |] He; [reflexivity |]. rewrite Forall_forall in HN. now apply HN in He. }
  unfold setDataFields. destruct (map (padded n) x) as [| r rs] eqn:EX; [destruct l; [congruence | discriminate] |]. rewrite <- EX in *. eexists. exists n. split; [reflexivity |]. cbn [sv_input sv_target].
  split; [exact Xp |]. split; [reflexivity |]. split.
  - apply Forall_map. eapply Forall_impl; [| exact F]. cbn beta. intros r0 Hr. unfold padded. rewrite app_length, repeat_length. lia.
  - destruct M as [| (r0 & Hr & Lr)]; [now left | right]. rewrite X in Hr. apply in_map_iff in Hr. destruct Hr as ([[c fs] |] & <- & He); [exists c, fs; auto |]. rewrite Forall_forall in HN. now apply HN in He.
Qed.
Lemma padded_nth n r k : nth k (padded n r) 0%Q = nth k r 0%Q.
Proof.
  unfold padded. destruct (Nat.lt_ge_cases k (length r)) as [K | K]; [now apply app_nth1 |]. rewrite app_nth2 by lia. rewrite nth_repeat0. symmetry. now apply nth_overflow.
Qed.
(** padding changes no value *)
Theorem C87_padded n l k : ascending 1 l -> (1 <= k)%Z -> nth (Z.to_nat (k - 1)) (padded n (features [] 1 l)) 0%Q = value_of l k.
Proof. intros A K. rewrite padded_nth. now apply C87_sparse. Qed.
(** a blank line and an empty file raise *)
Theorem C87_load_raises s : loadSVMdata s [] = Err PlainException /\ forall l, loadSVMdata s (None :: l) = Err IndexError.
Proof. split; reflexivity. Qed.
(** the counts: right for the first file, but the next ones are added to them while the data is replaced *)
Lemma load_counts s l s' : loadSVMdata s l = Ok s' -> sv_nSamples s' = sv_nSamples s + length l /\ length (sv_input s') = length l.
Proof.
  unfold loadSVMdata. assert (LR : forall l x y n x' y' n', readLines x y n l = Ok (x', y', n') -> length x' = length x + length l).
  { clear. induction l as [| [[c fs] |] l IH]; intros x y n x' y' n'; cbn [readLines length]; [intros [= <- <- <-]; lia | | discriminate]. intros E. apply IH in E. rewrite app_length in E. cbn [length] in E. lia. }
  destruct (readLines [] [] 0 l) as [[[x y] n] | e] eqn:E; cbn [rbind]; [| discriminate]. apply LR in E. cbn [length] in E. unfold setDataFields. destruct (map (padded n) x) eqn:EX; [discriminate |]. rewrite <- EX.
  intros [= <-]. cbn [sv_nSamples sv_input]. rewrite map_length. lia.
Qed.
Theorem C87_samples l s : loadSVMdata newSvm l = Ok s -> sv_nSamples s = length (sv_input s).
Proof. intros E. apply load_counts in E. destruct E as [E1 E2]. cbn [newSvm sv_nSamples] in E1. lia. Qed.
Theorem C87_samples_refuted l1 l2 s1 s2 : loadSVMdata newSvm l1 = Ok s1 -> loadSVMdata s1 l2 = Ok s2 -> sv_nSamples s2 = length l1 + length (sv_input s2) /\ sv_nSamples s2 <> length (sv_input s2).
Proof.
  intros E1 E2. assert (N : length l1 <> 0) by (destruct l1; [discriminate | cbn; lia]). apply load_counts in E1, E2. cbn [newSvm sv_nSamples] in E1. lia.
Qed.
Lemma hist_set_get h c n d : hist_get (hist_set h c n) d = if Qeq_bool c d then Some n else hist_get h d.
Proof.
  unfold hist_set. cbn [hist_get]. destruct (Qeq_bool c d) eqn:E; [reflexivity |]. induction h as [| [k m] h IH]; [reflexivity |]. cbn [filter fst]. destruct (Qeq_bool k c) eqn:K; cbn [negb hist_get].
  - rewrite IH. destruct (Qeq_bool k d) eqn:D; [| reflexivity]. apply Qeq_bool_iff in K, D. apply Qeq_bool_neq in E. exfalso. apply E. now rewrite <- K.
  - now rewrite IH.
Qed.
Lemma countQ_ext l c d : Qeq_bool c d = true -> countQ l c = countQ l d.
Proof.
  intros E. apply Qeq_bool_iff in E. unfold countQ. f_equal. apply filter_ext. intros v. apply eq_true_iff_eq. rewrite !Qeq_bool_iff. now rewrite E.
Qed.
(** the histogram counts the labels of the file read last; classes that only earlier files had keep their old counts *)
Theorem C87_histogram s l s' : loadSVMdata s l = Ok s' -> forall c,
  hist_get (sv_hist s') c = if existsb (fun y => Qeq_bool y c) (sv_target s') then Some (countQ (sv_target s') c) else hist_get (sv_hist s) c.
Proof.
  unfold loadSVMdata. destruct (readLines [] [] 0 l) as [[[x y] n] | e]; cbn [rbind]; [| discriminate]. unfold setDataFields. destruct (map (padded n) x); [discriminate |]. intros [= <-] c. cbn [sv_hist sv_target].
  assert (H : forall z h, hist_get (fold_left (fun h c => hist_set h c (countQ y c)) z h) c = if existsb (fun v => Qeq_bool v c) z then Some (countQ y c) else hist_get h c).
  { induction z as [| v z IH]; intros h; [reflexivity |]. cbn [fold_left existsb]. rewrite IH, hist_set_get. destruct (existsb _ z); [now rewrite orb_true_r |]. rewrite orb_false_r.
    destruct (Qeq_bool v c) eqn:E; [now rewrite (countQ_ext y v c E) | reflexivity]. }
  apply H.
Qed.
Theorem C87_histogram_first l s : loadSVMdata newSvm l = Ok s -> forall c, hist_get (sv_hist s) c = if existsb (fun y => Qeq_bool y c) (sv_target s) then Some (countQ (sv_target s) c) else None.
Proof. intros E c. now rewrite (C87_histogram _ _ _ E c). Qed.
Theorem C87_histogram_refuted : exists l1 l2 s1 s2, loadSVMdata newSvm l1 = Ok s1 /\ loadSVMdata s1 l2 = Ok s2 /\ hist_get (sv_hist s2) 1%Q = Some 2 /\ countQ (sv_target s2) 1%Q = 0.
Proof.
  exists [Some (1%Q, []); Some (1%Q, [(2%Z, 5%Q)])], [Some (3%Q, [(1%Z, 5%Q)])]. eexists _, _. split; [vm_compute; reflexivity |]. split; [vm_compute; reflexivity |]. split; vm_compute; reflexivity.
Qed.

(** ** Raw data *)
Lemma firstOn_spec t : forall i, match firstOn i t with
  | Some j => i <= j /\ j - i < length t /\ nth (j - i) t 0%Z <> 0%Z /\ forall k, k < j - i -> nth k t 0%Z = 0%Z
  | None => forall k, nth k t 0%Z = 0%Z end.
Proof.
  induction t as [| v t IH]; intros i; cbn [firstOn]; [intros [| k]; reflexivity |]. destruct (Z.eqb_spec v 0) as [-> | N].
  - specialize (IH (i + 1)). destruct (firstOn (i + 1) t) as [j |].
    + destruct IH as (A & B & C & D). split; [lia |]. cbn [length]. split; [lia |]. replace (j - i) with (S (j - (i + 1))) by lia. cbn [nth]. split; [exact C |]. intros [| k] Hk; [reflexivity |]. cbn [nth]. apply D. lia.
    + intros [| k]; cbn [nth]; auto.
  - split; [lia |]. cbn [length]. split; [lia |]. rewrite Nat.sub_diag. split; [exact N | intros; lia].
Qed.
(** with a target in every row the label is the position of the first one *)
Theorem C87_raw targets label : Forall (fun t => exists v, In v t /\ v <> 0%Z) targets -> exists ls, rawLabels label targets (length targets) = Ok ls /\
  Forall2 (fun t j => nth j t 0%Z <> 0%Z /\ forall k, k < j -> nth k t 0%Z = 0%Z) targets ls.
Proof.
  intros F. revert label. induction F as [| t targets (v & Hv & Nv) _ IH]; intros label; cbn [rawLabels length hd tl]; [exists []; auto |].
  pose proof (firstOn_spec t 0) as S. destruct (firstOn 0 t) as [j |].
  - destruct (IH (Some j)) as (ls & E & F2). rewrite E. cbn [rbind]. exists (j :: ls). split; [reflexivity |]. constructor; [| exact F2]. rewrite Nat.sub_0_r in S. tauto.
  - exfalso. apply (In_nth _ _ 0%Z) in Hv. destruct Hv as (k & _ & Hk). rewrite S in Hk. congruence.
Qed.
(** a row without a target, or a missing row, gets the label of the row before; at the start it raises *)
Theorem C87_raw_refuted t rest n j : (forall k, nth k t 0%Z = 0%Z) -> rawLabels (Some j) (t :: rest) (S n) = (let! r := rawLabels (Some j) rest n in Ok (j :: r)) /\
  rawLabels (Some j) [] n = Ok (repeat j n) /\ rawLabels None (t :: rest) (S n) = Err PlainException.
Proof.
  intros Z. assert (N : firstOn 0 t = None).
  { pose proof (firstOn_spec t 0) as S. destruct (firstOn 0 t) as [i |]; [| reflexivity]. exfalso. rewrite Z in S. tauto. }
  cbn [rawLabels hd tl]. rewrite N. split; [reflexivity |]. split; [| reflexivity]. induction n as [| n IH]; [reflexivity |]. cbn [rawLabels hd tl firstOn repeat]. rewrite IH. reflexivity.
Qed.

(** ** File names *)
Lemma str_eqb_iff a b : str_eqb a b = true <-> a = b.
Proof. unfold str_eqb. destruct (list_eq_dec _ a b); split; auto; discriminate. Qed.
(** the names without extension, of the files that have it and start with the tag *)
Theorem C87_files allfiles tag extension stem : extension <> [] ->
  (In stem (getAllFilesIn allfiles tag extension) <-> In (stem ++ extension) allfiles /\ exists rest, stem ++ extension = tag ++ rest).
Proof.
  intros Ne. unfold getAllFilesIn. rewrite in_flat_map. assert (L : length extension <> 0) by (destruct extension; cbn; congruence). apply Nat.eqb_neq in L. unfold from_end, until_end. rewrite L. split.
  - intros (f & Hf & H). destruct (str_eqb _ extension) eqn:E1; [| destruct H]. destruct (str_eqb (firstn (length tag) f) tag) eqn:E2; [| destruct H]. destruct H as [<- | []].
    apply str_eqb_iff in E1, E2. assert (Ef : firstn (length f - length extension) f ++ extension = f) by (rewrite <- E1 at 2; apply firstn_skipn). rewrite Ef. split; [exact Hf |]. exists (skipn (length tag) f). rewrite <- E2 at 1. now rewrite firstn_skipn.
  - intros [Hf (rest & E)]. exists (stem ++ extension). split; [exact Hf |]. rewrite app_length. replace (length stem + length extension - length extension) with (length stem) by lia.
    rewrite skipn_app, Nat.sub_diag, skipn_all. cbn [skipn app]. rewrite (proj2 (str_eqb_iff extension extension) eq_refl).
    assert (T : firstn (length tag) (stem ++ extension) = tag) by (rewrite E, firstn_app, Nat.sub_diag, firstn_all; apply app_nil_r). rewrite T, (proj2 (str_eqb_iff tag tag) eq_refl). cbn [andb].
    left. rewrite firstn_app, Nat.sub_diag, firstn_all. apply app_nil_r.
Qed.
(** but with the empty extension no file is found *)
Theorem C87_files_refuted allfiles tag : Forall (fun f => f <> []) allfiles -> getAllFilesIn allfiles tag [] = [].
Proof.
  induction 1 as [| f l Nf _ IH]; [reflexivity |]. unfold getAllFilesIn in *. cbn [flat_map]. rewrite IH. cbn [length from_end Nat.eqb]. destruct (str_eqb f []) eqn:E; [apply str_eqb_iff in E; congruence | reflexivity].
Qed.
Lemma found_iff s rs : found s rs = true <-> holds s rs.
Proof.
  induction s as [| c s IH]; cbn [found].
  - rewrite orb_false_r, str_eqb_iff. rewrite firstn_nil. split; [intros <-; exists [], []; reflexivity |]. intros (a & b & E). destruct a; [| discriminate]. destruct rs; [reflexivity | discriminate].
  - rewrite orb_true_iff, str_eqb_iff, IH. split.
    + intros [E | (a & b & ->)]; [exists [], (skipn (length rs) (c :: s)); cbn [app]; rewrite <- (firstn_skipn (length rs) (c :: s)) at 1; now rewrite E | exists (c :: a), b; reflexivity].
    + intros (a & b & E). destruct a as [| c' a]; [left; cbn [app] in E; rewrite E, firstn_app, Nat.sub_diag, firstn_all; apply app_nil_r | right]. injection E as -> ->. exists a, b. reflexivity.
Qed.
(** all the pieces are required, or one of them; without pieces everything stays *)
Theorem C87_select strings required s : In s (selectSome strings required true) <-> In s strings /\ forall p, In p required -> holds s p.
Proof.
  unfold selectSome. destruct required as [| r rs]; [split; [intros H; split; [exact H | intros ? []] | tauto] |]. rewrite filter_In, forallb_forall. setoid_rewrite found_iff. reflexivity.
Qed.
Theorem C87_select_any strings required s : required <> [] -> (In s (selectSome strings required false) <-> In s strings /\ exists p, In p required /\ holds s p).
Proof. intros N. unfold selectSome. destruct required as [| r rs]; [congruence |]. rewrite filter_In, existsb_exists. setoid_rewrite found_iff. reflexivity. Qed.

(** ** Keyword arguments *)
Theorem C87_kwargs_add {V} (kwargs obj : str -> option V) d :
  (kw_mandatory d = true -> kw_default d <> None -> kw_add kwargs obj d = Err AssertionError) /\
  (kw_mandatory d = true -> kw_default d = None -> kwargs (kw_name d) = None -> kw_add kwargs obj d = Err KeyError) /\
  forall o, kw_add kwargs obj d = Ok o -> (forall n, n <> attrname d -> o n = obj n) /\
    o (attrname d) = match kwargs (kw_name d) with Some v => Some v | None => match kw_default d with Some v => Some v | None => obj (attrname d) end end.
Proof.
  unfold kw_add. split; [| split].
  - intros -> N. destruct (kw_default d); [reflexivity | congruence].
  - intros -> -> ->. reflexivity.
  - intros o. destruct (_ && _); [discriminate |].
    assert (P : forall v, (forall n, n <> attrname d -> put_attr obj (attrname d) v n = obj n) /\ put_attr obj (attrname d) v (attrname d) = Some v).
    { intros v. unfold put_attr. split; [intros n Nn; destruct (str_eqb n (attrname d)) eqn:E; [apply str_eqb_iff in E; congruence | reflexivity] | now rewrite (proj2 (str_eqb_iff _ _) eq_refl)]. }
    destruct (kwargs (kw_name d)) as [v |]; [intros [= <-]; apply P |]. destruct (kw_default d) as [v |]; [intros [= <-]; apply P |]. destruct (kw_mandatory d); [discriminate |]. intros [= <-]. auto.
Qed.
(** in any order: an attribute nobody else names has the given value, or the default; arguments not described are ignored *)
Theorem C87_kwargs {V} (kwargs obj : str -> option V) before d after o : kw_process kwargs obj (before ++ d :: after) = Ok o ->
  Forall (fun e => attrname e <> attrname d) (before ++ after) ->
  o (attrname d) = match kwargs (kw_name d) with Some v => Some v | None => match kw_default d with Some v => Some v | None => obj (attrname d) end end.
Proof.
  intros E F. apply Forall_app in F. destruct F as [FB FA]. revert obj E. induction FB as [| e before Ne _ IH]; intros obj E.
  - cbn [app kw_process] in E. destruct (kw_add kwargs obj d) as [o1 |] eqn:A; cbn [rbind] in E; [| discriminate]. apply C87_kwargs_add in A. destruct A as [_ A]. rewrite <- A. clear A. revert o1 E.
    induction FA as [| e after Ne _ IH]; intros o1 E; cbn [kw_process] in E; [now injection E as -> |]. destruct (kw_add kwargs o1 e) as [o2 |] eqn:A; cbn [rbind] in E; [| discriminate].
    apply C87_kwargs_add in A. destruct A as [A _]. rewrite (IH o2 E). apply A. congruence.
  - cbn [app kw_process] in E. destruct (kw_add kwargs obj e) as [o1 |] eqn:A; cbn [rbind] in E; [| discriminate]. apply C87_kwargs_add in A. destruct A as [A _]. rewrite (IH o1 E). now rewrite A by congruence.
Qed.
Example C87_kwargs_private_case : map attrname [{| kw_name := [97]; kw_private := true; kw_default := Some 0; kw_mandatory := false |}; {| kw_name := [98]; kw_private := false; kw_default := None; kw_mandatory := true |}] = [[95; 97]; [98]].
Proof. reflexivity. Qed.

Example C87_sparse_case : features [] 1 [(2%Z, 5%Q); (4%Z, 7%Q)] = [0; 5; 0; 7]%Q /\ ascending 1 [(2%Z, 5%Q); (4%Z, 7%Q)].
Proof. split; [reflexivity | cbn; lia]. Qed.
Example C87_raw_case : rawLabels None [[0; 1; 1]; [1; 0; 0]; [0; 0; 0]]%Z 4 = Ok [1; 0; 0; 0].
Proof. reflexivity. Qed.
Example C87_files_case : getAllFilesIn [[1; 2; 9; 9]; [2; 9; 9]; [1; 9]] [1] [9; 9] = [[1; 2]] /\ selectSome [[1; 2; 3]; [2; 3; 4]] [[2; 3]; [1]] true = [[1; 2; 3]].
Proof. split; reflexivity. Qed.
