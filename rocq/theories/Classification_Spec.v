(** Specification vocabulary for ClassificationDataSet and time windows. *)
From Verif Require Import Base.

(** The entries of [rows] whose class satisfies [p], in order; [rows] beyond the
    end of the class list are not there. *)
Definition of_class {A} (p : Z -> bool) (cs : list Z) (rows : list A) : list A :=
  map snd (filter (fun cr => p (fst cr)) (combine cs rows)).

(** Window number [j] of a sequence of (input, target) samples: the inputs of [w]
    consecutive samples side by side, and the target of the last of them. *)
Definition window (sq : list (list (list Z))) (w j : nat) : list (list Z) :=
  [concat (map (fun s => nth 0 s []) (slice (j * w) ((j + 1) * w) sq));
   nth 1 (nth ((j + 1) * w - 1) sq []) []].

(** The first [count] windows. *)
Definition windows_of (sq : list (list (list Z))) (w count : nat) : list (list (list Z)) :=
  map (window sq w) (seq 0 count).

(** The documented result: all complete windows of all sequences. *)
Definition all_windows (ss : list (list (list (list Z)))) (w : nat) : list (list (list Z)) :=
  flat_map (fun sq => windows_of sq w (length sq / w)) ss.

(** The last sequence truncated so that at most [n] samples are counted from the
    beginning of the data. *)
Definition cut_last {A} (n : nat) (ss : list (list A)) : list (list A) :=
  removelast ss ++ [firstn (n - length (concat (removelast ss))) (last ss [])].
