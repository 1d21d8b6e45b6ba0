(** Model of the small helpers of src/CTL/funcs/funcs.py that build dicts, compare floats and
    invert a spectrum. [floatEqual] and [floatRelativeEqual] are in FuncsModel.
    Simplification: floats are exact rationals (no rounding, no inf, no nan). *)
From Coq Require Import List Arith Bool ZArith QArith.
From Verif Require Import Base FuncsModel.
Import ListNotations.
Local Open Scope list_scope.
Local Open Scope nat_scope.

(** Python [d[k] = v] on a dict kept as an association list in insertion order: an existing key
    keeps its place, a new key is appended. *)
Fixpoint dict_set {K V} `{Dec K} (d : list (K * V)) (k : K) (v : V) : list (K * V) :=
  match d with
  | [] => [(k, v)]
  | (k', v') :: d' => if dec k k' then (k', v) :: d' else (k', v') :: dict_set d' k v
  end.

(** funcs.py 880-898 [mapToDict]: [res[key] = x] for every key, with the whole of [x]. *)
Definition mapToDict {K V} `{Dec K} (dictShape : list K) (x : V) : list (K * V) :=
  fold_left (fun d key => dict_set d key x) dictShape [].

(** funcs.py 997-1016 [identicalTensorDict]. *)
Definition identicalTensorDict {K V} `{Dec K} (tensor : V) (names : list K) : list (K * V) :=
  fold_left (fun d name => dict_set d name tensor) names [].

(** funcs.py 923-939 [tupleSwap]: [a, b = tp] raises ValueError unless tp has two elements. *)
Definition tupleSwap {X} (tp : list X) : res (list X) :=
  match tp with
  | [a; b] => Ok [b; a]
  | _ => Err ValueError
  end.

(** funcs.py 865-878 [getInRangeFunc]. *)
Definition getInRangeFunc (low high : Q) : Q -> bool := fun x => Qltb low x && Qltb x high.

(** Python [res[i] = v]; positions are non-negative here. *)
Fixpoint set_at {X} (i : nat) (v : X) (l : list X) : option (list X) :=
  match l, i with
  | [], _ => None
  | _ :: l', 0 => Some (v :: l')
  | x :: l', S i' => option_map (cons x) (set_at i' v l')
  end.

(** funcs.py 801-820 [partialInverse]: zeros, then [res[i] = 1.0 / s[i]] for i in range(cutoff).
    [s[i]] beyond the end raises IndexError. Simplification: a zero among the inverted elements
    raises ZeroDivisionError, which is what a list of Python floats does; numpy scalars give
    inf with a warning. *)
Fixpoint partialInverse_loop (s : list Q) (is : list nat) (acc : list Q) : res (list Q) :=
  match is with
  | [] => Ok acc
  | i :: is' =>
      match nth_error s i with
      | None => Err IndexError
      | Some x =>
          if Qeq_bool x 0 then Err ZeroDivisionError
          else match set_at i (/ x)%Q acc with
               | None => Err IndexError
               | Some acc' => partialInverse_loop s is' acc'
               end
      end
  end.
Definition partialInverse (s : list Q) (cutoff : nat) : res (list Q) :=
  partialInverse_loop s (seq 0 cutoff) (repeat 0%Q (List.length s)).

(** funcs.py 977-995 [floatArrayEqual]; an array is its shape and its elements in C order
    ([ravel]). *)
Definition floatArrayEqual (shapeA : list nat) (a : list Q) (shapeB : list nat) (b : list Q) (eps : Q) : bool :=
  if dec shapeA shapeB
  then forallb (fun p => floatEqual (fst p) (snd p) eps) (combine a b)
  else false.
