(** Model of the pure helpers of src/CTL/funcs/funcs.py.
    Python ints are [Z] (or [nat] where the code only ever gets sizes and counters);
    [%] and [//] are floor operations, i.e. [Z.modulo] and [Z.div] for non-zero divisors. *)
From Coq Require Import List Arith Bool Lia ZArith QArith String Ascii.
From Verif Require Import Base.
Import ListNotations.
Local Open Scope list_scope.
Local Open Scope nat_scope.

Section Generic.
Context {A : Type} {HD : Dec A}.

(** keep the first occurrence of every element (insertion order of a dict/Counter) *)
Fixpoint dedup (l : list A) : list A :=
  match l with
  | [] => []
  | x :: l' => x :: filter (fun y => if dec x y then false else true) (dedup l')
  end.

(** funcs.py 36-55 [listDifference]: copy [total], then [ret.remove(x)] for every x in [used]. *)
Fixpoint listDifference (total used : list A) : res (list A) :=
  match used with
  | [] => Ok total
  | x :: used' => match remove_one x total with
                  | None => Err ValueError
                  | Some t => listDifference t used'
                  end
  end.

(** funcs.py 57-75 [deleteAllInUsed]. *)
Definition deleteAllInUsed (total used : list A) : list A :=
  filter (fun x => negb (inb x used)) total.

(** funcs.py 139-152 [compareLists]: [Counter(a) == Counter(b)].
    A Counter maps every element of the list to its multiplicity; equality compares all keys. *)
Definition compareLists (a b : list A) : bool :=
  forallb (fun x => Nat.eqb (count x a) (count x b)) (a ++ b).

(** funcs.py 154-169 [commonElements]: [(Counter(x) & Counter(y)).elements()];
    keys in insertion order of the first counter, each repeated min(multiplicities) times. *)
Definition commonElements (x y : list A) : list A :=
  flat_map (fun e => repeat e (Nat.min (count e x) (count e y))) (dedup x).

(** funcs.py 171-185 [listSymmetricDifference]: [list(set(x) ^ set(y))].
    Simplification: the order of the returned list is unspecified in Python; the model picks one. *)
Definition listSymmetricDifference (x y : list A) : list A :=
  filter (fun e => negb (inb e y)) (dedup x) ++ filter (fun e => negb (inb e x)) (dedup y).

(** funcs.py 1018-1035 [checkAllEqual]. *)
Definition checkAllEqual (tp : list A) : bool :=
  match tp with
  | [] => true
  | x0 :: _ => forallb (fun x => if dec x x0 then true else false) tp
  end.

(** funcs.py 1315-1344 [generateIndices].  [currentIndex] is the dict of the last index
    handed out per element; [index_from s] is [elemList[s:].index(elem) + s]. *)
Definition index_from (elemList : list A) (s : nat) (e : A) : option nat :=
  option_map (fun k => k + s) (index_of e (skipn s elemList)).

Fixpoint generateIndices_loop (elemList : list A) (cur : list (A * nat)) (elems : list A)
  : list (option nat) :=
  match elems with
  | [] => []
  | e :: elems' =>
      let start := match find (fun p => if dec e (fst p) then true else false) cur with
                   | Some p => S (snd p) | None => 0 end in
      match index_from elemList start e with
      | None => None :: generateIndices_loop elemList cur elems'
      | Some i => Some i :: generateIndices_loop elemList ((e, i) :: cur) elems'
      end
  end.
Definition generateIndices (elemList elems : list A) := generateIndices_loop elemList [] elems.

(** funcs.py 1243-1261 [pairIterator]. *)
Fixpoint pairIterator {X} (a : list X) : list (X * X) :=
  match a with
  | [] => []
  | x :: a' => map (fun y => (x, y)) a' ++ pairIterator a'
  end.

(** funcs.py 77-99 [tupleRemoveByIndex]. Simplification: indices are non-negative. *)
Definition tupleRemoveByIndex {X} (t : list X) (indexList : list nat) : list X :=
  map snd (filter (fun p => negb (inb (fst p) indexList)) (combine (seq 0 (List.length t)) t)).

(** funcs.py 759-779 [getCombineSet]: [listDict] is an association list, the returned set a
    duplicate-free list. *)
Definition lookup {K V} `{Dec K} (k : K) (d : list (K * V)) : option V :=
  option_map snd (find (fun p => if dec k (fst p) then true else false) d).
Fixpoint getCombineSet_loop {K} `{Dec K} (listDict : list (K * list A)) (names : list K) (acc : list A)
  : res (list A) :=
  match names with
  | [] => Ok (dedup acc)
  | n :: names' => match lookup n listDict with
                   | None => Err AssertionError
                   | Some l => getCombineSet_loop listDict names' (acc ++ l)
                   end
  end.
Definition getCombineSet {K} `{Dec K} (listDict : list (K * list A)) (names : list K) :=
  getCombineSet_loop listDict names [].
End Generic.

(** funcs.py 101-118 [tupleProduct]: [res = 1; for x: res *= x]. *)
Definition tupleProduct (l : list Z) : Z := fold_left Z.mul l 1%Z.

(** funcs.py 187-208 [intToBitList]: [range(dim)] is empty for negative dim. *)
Fixpoint intToBitList (x : Z) (dim : nat) : list Z :=
  match dim with
  | O => []
  | S d => (x mod 2)%Z :: intToBitList (x / 2)%Z d
  end.

(** funcs.py 228-244 [safeMod]; m = 0 raises ZeroDivisionError. *)
Definition safeMod (x m : Z) : res Z :=
  if (m =? 0)%Z then Err ZeroDivisionError else Ok (((x mod m) + m) mod m)%Z.

(** funcs.py 246-268 [intToDBaseTuple]. *)
Fixpoint intToDBaseTuple (x : Z) (dim : nat) (D : Z) : res (list Z) :=
  match dim with
  | O => Ok []
  | S d => if (D =? 0)%Z then Err ZeroDivisionError
           else letr r := intToDBaseTuple (x / D)%Z d D in Ok ((x mod D)%Z :: r)
  end.

(** funcs.py 575-597 [getIndexDict]: the loop runs i = len(shape)-1 .. 0; here over the reversed
    (position, size) list.  The dict is an association list with the newest binding first.
    labels[i] out of range is an IndexError, a zero size a ZeroDivisionError. *)
Fixpoint getIndexDict_loop (idx : Z) (labels : list string) (rs : list (nat * Z))
  (d : list (string * Z)) : res (list (string * Z)) :=
  match rs with
  | [] => Ok d
  | (i, s) :: rs' =>
      if (s =? 0)%Z then Err ZeroDivisionError else
      match nth_error labels i with
      | None => Err IndexError
      | Some l => getIndexDict_loop (idx / s)%Z labels rs' ((l, (idx mod s)%Z) :: d)
      end
  end.
Definition getIndexDict (idx : Z) (labels : list string) (shape : list Z) :=
  getIndexDict_loop idx labels (rev (combine (seq 0 (List.length shape)) shape)) [].

(** funcs.py 621-644 [divideIntoKParts]: a generator, modelled by the list of yielded values.
    For k <= 0 the recursion never reaches k = 1 (RecursionError). *)
Fixpoint divide_aux (k' : nat) (n : nat) : list (list nat) :=
  match k' with
  | O => [[n]]
  | S k'' => flat_map (fun i => map (cons i) (divide_aux k'' (n - i))) (seq 0 (n + 1))
  end.
Definition divideIntoKParts (n k : nat) : res (list (list nat)) :=
  match k with O => Err RecursionError | S k' => Ok (divide_aux k' n) end.

(** funcs.py 646-665 [myComb]: p multiplications, then p floor divisions. *)
Definition myComb (n : Z) (p : nat) : Z :=
  fold_left (fun r i => r / (Z.of_nat i + 1))%Z (seq 0 p)
    (fold_left (fun r i => r * (n - Z.of_nat i))%Z (seq 0 p) 1%Z).

(** funcs.py 667-685 [calculateDivisionTimes]. *)
Fixpoint cdt_loop (res n : Z) (division : list nat) : Z :=
  match division with
  | [] => res
  | p :: d' => cdt_loop (res * myComb n p)%Z (n - Z.of_nat p)%Z d'
  end.
Definition calculateDivisionTimes (division : list nat) : Z :=
  cdt_loop 1 (Z.of_nat (list_sum division)) division.

(** funcs.py 729-757 [binarySearch].  Simplification: floats are rationals (exact arithmetic);
    the while loop is fuelled, running out of fuel is [OutOfFuel]. *)
Fixpoint binarySearch_loop (fuel : nat) (l r : Q) (f : Q -> bool) (eps : Q) : res Q :=
  if Qle_bool (r - l) eps then Ok ((1 # 2) * (l + r))%Q else
  match fuel with
  | O => Err OutOfFuel
  | S fuel' =>
      let mid := ((1 # 2) * (l + r))%Q in
      if f mid then binarySearch_loop fuel' l mid f eps
      else binarySearch_loop fuel' mid r f eps
  end.
Definition binarySearch (fuel : nat) (left right : Q) (f : Q -> bool) (eps : Q) : res Q :=
  if Qle_bool right left then Err AssertionError else binarySearch_loop fuel left right f eps.

(** funcs.py 781-799 [getCutoff]: first position below the threshold, or the length.
    [below] is the comparison [s[i] < threshold]. *)
Fixpoint getCutoff {X} (below : X -> bool) (s : list X) : nat :=
  match s with
  | [] => 0
  | x :: s' => if below x then 0 else S (getCutoff below s')
  end.

(** funcs.py 687-711 [getValidValues] with [small x] for [abs(x) < threshold]. *)
Definition getValidValues {X} (small : X -> bool) (values : list X) : list nat * list X :=
  let kept := filter (fun p => small (snd p)) (combine (seq 0 (List.length values)) values) in
  (map fst kept, map snd kept).

(** funcs.py 822-863 [oppositeDirection], [oppositeSingleDirection] (with [assertInSet], 506-518). *)
Definition oppositeSingleDirection (c : ascii) : res ascii :=
  if Ascii.eqb c "l" then Ok "r"%char
  else if Ascii.eqb c "r" then Ok "l"%char
  else if Ascii.eqb c "u" then Ok "d"%char
  else if Ascii.eqb c "d" then Ok "u"%char
  else Err AssertionError.
Fixpoint oppositeDirection (s : string) : res string :=
  match s with
  | EmptyString => Ok EmptyString
  | String c s' => letr c' := oppositeSingleDirection c in
                   letr r := oppositeDirection s' in Ok (String c' r)
  end.

(** funcs.py 941-957 [floatEqual], 959-975 [floatRelativeEqual]; floats are rationals. *)
Definition Qltb (a b : Q) : bool := negb (Qle_bool b a).
Definition Qabs' (a : Q) : Q := if Qle_bool 0 a then a else Qopp a.
Definition floatEqual (a b eps : Q) : bool := Qltb (Qabs' (a - b)) eps.
Definition floatRelativeEqual (a b eps : Q) : bool := Qltb (Qabs' (a - b)) (eps * (1 # 2) * (a + b)).

(** funcs.py 120-137 [spinChainProductSum]: [spins[i + 1 - n]] is Python negative indexing,
    i.e. position i + 1 for i < n - 1 and position 0 for i = n - 1. *)
Definition pyindex (n : nat) (i : Z) : nat :=
  Z.to_nat (if (i <? 0)%Z then i + Z.of_nat n else i)%Z.
Definition spinChainProductSum (spins : list Z) : Z :=
  let n := List.length spins in
  fold_left (fun r i => r + nth i spins 0 * nth (pyindex n (Z.of_nat i + 1 - Z.of_nat n)) spins 0)%Z
    (seq 0 n) 0%Z.

(** funcs.py 1103-1125 [indexTupleToStr] for non-negative indices. *)
Definition indexTupleToStr (idx : list nat) : res string :=
  if existsb (fun x => Nat.leb 26 x) idx then Err ValueError
  else Ok (fold_right (fun x s => String (ascii_of_nat (97 + x)) s) EmptyString idx).

(** funcs.py 1207-1226 [combineName]: [givenName] or the names joined by '|'. *)
Definition combineName (names : list string) (given : option string) : string :=
  match given with Some s => s | None => String.concat "|" names end.
