(** Model of /repo/internal/pattern/match.go. *)
From Coq Require Import List Ascii String NArith ZArith Bool Lia.
From Verif Require Import GoStr.
Import ListNotations.

Definition r_star : N := 42.
Definition r_quest : N := 63.
Definition r_bslash : N := 92.

(** match.go:114-132: pattern runes paired with their "escaped" flag. A
    backslash at the very end is an ordinary character. *)
Fixpoint process_escapes (p : list N) : list (N * bool) :=
  match p with
  | [] => []
  | c :: p' =>
      if (c =? r_bslash)%N then
        match p' with
        | [] => [(c, false)]
        | d :: p2 => (d, true) :: process_escapes p2
        end
      else (c, false) :: process_escapes p'
  end.

Definition is_star (x : N * bool) : bool := (fst x =? r_star)%N && negb (snd x).
Definition is_quest (x : N * bool) : bool := (fst x =? r_quest)%N && negb (snd x).

(** match.go:59-67: row 0 of the table, from column 1; [left] is dp[0][j-1]. *)
Fixpoint dp_row0 (p : list (N * bool)) (left : bool) : list bool :=
  match p with
  | [] => []
  | x :: p' => let v := if is_star x then left else false in v :: dp_row0 p' v
  end.

(** match.go:73-96: columns 1.. of row i. [prev] is row i-1 from column j-1 on,
    [left] is dp[i][j-1], [it] the iteration counter; None: limit exceeded. *)
Fixpoint dp_row (max it : N) (c : N) (p : list (N * bool)) (prev : list bool) (left : bool)
  : option (list bool * N) :=
  match p, prev with
  | x :: p', d :: ((u :: _) as prev') =>
      let it' := (it + 1)%N in
      if (max <? it')%N then None
      else
        let v := if is_star x then left || u
                 else if is_quest x then d
                 else if (fst x =? c)%N then d
                 else false in
        match dp_row max it' c p' prev' v with
        | Some (row, it2) => Some (v :: row, it2)
        | None => None
        end
  | _, _ => Some ([], it)
  end.

(** match.go:72-97: dp[i][0] is false for i >= 1. *)
Fixpoint dp_rows (max it : N) (s : list N) (p : list (N * bool)) (prev : list bool)
  : option (list bool) :=
  match s with
  | [] => Some prev
  | c :: s' =>
      match dp_row max it c p prev false with
      | None => None
      | Some (row, it') => dp_rows max it' s' p (false :: row)
      end
  end.

(** match.go:41-100 on runes: (matched, stopped). *)
Definition match_runes (s pat : list N) (max : N) : bool * bool :=
  let p := process_escapes pat in
  match dp_rows max 0 s p (true :: dp_row0 p true) with
  | None => (false, true)
  | Some row => (last row false, false)
  end.

(** match.go:41-46 *)
Definition pattern_match (str pat : bytes) (max : N) : bool * bool :=
  match_runes (runes str) (runes pat) max.
