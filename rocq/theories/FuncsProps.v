(** Property theorems for funcs.py: C41, C42, C43, C44, C49. *)
From Coq Require Import List Arith Bool ZArith QArith Qabs String Permutation Factorial Lqa.
From Verif Require Import Base FuncsModel FuncsSpec FuncsProofs.
Import ListNotations.
Local Open Scope list_scope.
Local Open Scope nat_scope.

(** C41 *)
Theorem C41_divideIntoKParts : forall n k, 1 <= k ->
  exists L, divideIntoKParts n k = Ok L /\ NoDup L /\
    forall p, In p L <-> List.length p = k /\ list_sum p = n.
Proof. exact divideIntoKParts_spec. Qed.
Print Assumptions C41_divideIntoKParts.
Example C41_ex : divideIntoKParts 2 2 = Ok [[0; 2]; [1; 1]; [2; 0]].
Proof. reflexivity. Qed.

Theorem C41_no_parts_raises : forall n, divideIntoKParts n 0 = Err RecursionError.
Proof. reflexivity. Qed.

(** C42 *)
Theorem C42_myComb : forall n p, myComb (Z.of_nat n) p = Z.of_nat (binom n p).
Proof. exact myComb_binom. Qed.
Print Assumptions C42_myComb.
Theorem C42_multinomial : forall d,
  (calculateDivisionTimes d * Z.of_nat (prodn (map fact d)) = Z.of_nat (fact (list_sum d)))%Z.
Proof. exact calculateDivisionTimes_spec. Qed.
Print Assumptions C42_multinomial.
Theorem C42_total : forall n k, 1 <= k ->
  exists L, divideIntoKParts n k = Ok L /\
    zsum (map calculateDivisionTimes L) = (Z.of_nat k ^ Z.of_nat n)%Z.
Proof. exact division_total. Qed.
Print Assumptions C42_total.
Example C42_ex : myComb 5 2 = 10%Z /\ calculateDivisionTimes [2; 0; 3] = 10%Z.
Proof. split; reflexivity. Qed.

(** C43 *)
Theorem C43_compareLists : forall {A} `{Dec A} (a b : list A),
  compareLists a b = true <-> Permutation a b.
Proof. exact @compareLists_perm. Qed.
Print Assumptions C43_compareLists.
Theorem C43_listDifference : forall {A} `{Dec A} (total used : list A),
  match listDifference total used with
  | Ok r => (forall x, count x used <= count x total)
            /\ r = drop_budget (fun x => count x used) total
            /\ Permutation (used ++ r) total
  | Err e => e = ValueError /\ exists x, count x total < count x used
  end.
Proof. exact @listDifference_cases. Qed.
Print Assumptions C43_listDifference.
Theorem C43_commonElements : forall {A} `{Dec A} (x y : list A) e,
  count e (commonElements x y) = Nat.min (count e x) (count e y).
Proof. exact @commonElements_count. Qed.
Print Assumptions C43_commonElements.
Theorem C43_listSymmetricDifference : forall {A} `{Dec A} (x y : list A),
  NoDup (listSymmetricDifference x y) /\
  forall e, In e (listSymmetricDifference x y) <-> (In e x /\ ~ In e y) \/ (In e y /\ ~ In e x).
Proof. exact @listSymmetricDifference_spec. Qed.
Print Assumptions C43_listSymmetricDifference.
Example C43_ex :
  listDifference [1; 2; 1; 3] [1; 3] = Ok [2; 1] /\ listDifference [1; 2] [2; 2] = Err ValueError
  /\ compareLists [1; 2; 1] [2; 1; 1] = true /\ compareLists [1; 2] [1; 2; 2] = false
  /\ commonElements [1; 2; 1; 3] [1; 1; 1; 3] = [1; 1; 3]
  /\ listSymmetricDifference [1; 2; 2] [2; 3] = [1; 3].
Proof. repeat split; reflexivity. Qed.

(** C44 *)
Theorem C44_intToBitList : forall dim x,
  List.length (intToBitList x dim) = dim /\ Forall (fun d => 0 <= d < 2)%Z (intToBitList x dim) /\
  posval 2 (intToBitList x dim) = (x mod 2 ^ Z.of_nat dim)%Z.
Proof. exact intToBitList_spec. Qed.
Print Assumptions C44_intToBitList.
Theorem C44_intToDBaseTuple : forall D, (0 < D)%Z -> forall dim x,
  exists ds, intToDBaseTuple x dim D = Ok ds /\ List.length ds = dim /\
   Forall (fun d => 0 <= d < D)%Z ds /\ posval D ds = (x mod D ^ Z.of_nat dim)%Z.
Proof. exact intToDBaseTuple_spec. Qed.
Print Assumptions C44_intToDBaseTuple.
Theorem C44_intToDBaseTuple_injective : forall D dim x y, (0 < D)%Z ->
  (0 <= x < D ^ Z.of_nat dim)%Z -> (0 <= y < D ^ Z.of_nat dim)%Z ->
  intToDBaseTuple x dim D = intToDBaseTuple y dim D -> x = y.
Proof. exact intToDBaseTuple_inj. Qed.
Print Assumptions C44_intToDBaseTuple_injective.
Theorem C44_getIndexDict : forall idx labels shape,
  List.length labels = List.length shape -> Forall (fun s => 0 < s)%Z shape ->
  exists ds, getIndexDict idx labels shape = Ok (combine labels ds) /\
    List.length ds = List.length shape /\ Forall2 (fun d s => 0 <= d < s)%Z ds shape /\
    rmval shape ds = (idx mod zprod shape)%Z.
Proof. exact getIndexDict_spec. Qed.
Print Assumptions C44_getIndexDict.
Theorem C44_getIndexDict_injective : forall labels shape x y,
  List.length labels = List.length shape -> Forall (fun s => 0 < s)%Z shape ->
  (0 <= x < zprod shape)%Z -> (0 <= y < zprod shape)%Z ->
  getIndexDict x labels shape = getIndexDict y labels shape -> x = y.
Proof. exact getIndexDict_inj. Qed.
Print Assumptions C44_getIndexDict_injective.
Example C44_ex : intToBitList 6 4 = [0; 1; 1; 0]%Z /\ intToDBaseTuple 47 3 5 = Ok [2; 4; 1]%Z
  /\ intToDBaseTuple (-1) 2 5 = Ok [4; 4]%Z
  /\ getIndexDict 17 ["a"; "b"; "c"]%string [2; 3; 4]%Z = Ok [("a", 1); ("b", 1); ("c", 1)]%string%Z.
Proof. repeat split; reflexivity. Qed.

(** C49 *)
Theorem C49_binarySearch : forall (f : Q -> bool) (eps left right : Q),
  (0 < eps)%Q -> (left < right)%Q ->
  exists n m, binarySearch n left right f eps = Ok m /\
   forall s, (left <= s <= right)%Q ->
     (forall x, (x < s)%Q -> f x = false) -> (forall x, (s < x)%Q -> f x = true) ->
     (Qabs (m - s) <= eps / 2)%Q.
Proof. exact binarySearch_spec. Qed.
Print Assumptions C49_binarySearch.
Theorem C49_bad_interval : forall n f eps left right, (right <= left)%Q ->
  binarySearch n left right f eps = Err AssertionError.
Proof. exact binarySearch_bad. Qed.
Print Assumptions C49_bad_interval.
Example C49_ex : exists m, binarySearch 5 0 1 (fun x => Qle_bool (1 # 3) x) (1 # 8) = Ok m /\ (m == 5 # 16)%Q.
Proof. eexists. split; [reflexivity|]. reflexivity. Qed.
