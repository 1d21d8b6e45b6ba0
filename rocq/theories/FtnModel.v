(** Model of src/CTL/tensornetwork/tensornetwork.py (class FiniteTensorNetwork) and of the dictionary handed to
    contract (src/CTL/tensornetwork/tensordict.py 1-21, whose attribute [tensors] is the dictionary itself).

    Lists of tensor names are objects with an identity, because a network keeps the list it was given.  Number 0
    is the list object of the default argument in line 10, which Python evaluates once.
    [symdiff] and [fuel] are the parameters of the sequence search (NetGraphModel.v). *)
From Coq Require Import List Arith Bool String.
From Verif Require Import Base NdModel HeapModel FuncsModel TensorModel ContractModel SearchModel GraphModel NetGraphModel.
Import ListNotations.
Local Open Scope nat_scope.

#[global] Instance Dec_prod {X Y} `{Dec X} `{Dec Y} : Dec (X * Y).
Proof. intros [x y] [x' y']. destruct (dec x x'), (dec y y'); subst; [now left|right|right|right]; congruence. Defined.

(** tensornetwork.py 10-29: the attributes; [f_names] is the list object *)
Definition link : Type := (string * string) * (string * string).
Record ftn := mkFtn { f_names : nat; f_seq : option (list (nat * nat)); f_real : bool; f_links : list link;
  f_dims : list (pname * nat); f_locked : bool; f_changed : bool;
  f_before : list (string * string * string); f_after : list (string * string * string);
  f_out : list (list pname * string); f_typ : option nat }.

Section Ftn.
Context {A : Type} {HA : SR A}.
Notation heap := (heap A).
Notation M := (@M A).
Variable symdiff : list nat -> list nat -> list nat.
Variable fuel : nat.

(** the tensors, the lists of names and the network objects *)
Record world := mkWorld { w_heap : heap; w_names : nat -> list string; w_nnames : nat; w_ftn : nat -> ftn; w_nftn : nat }.
Definition WM (X : Type) : Type := world -> world * res X.
Definition wret {X} (x : X) : WM X := fun w => (w, Ok x).
Definition wraise {X} (e : exn) : WM X := fun w => (w, Err e).
Definition wbind {X Y} (m : WM X) (k : X -> WM Y) : WM Y :=
  fun w => match m w with (w', Ok x) => k x w' | (w', Err e) => (w', Err e) end.
Definition wreads {X} (f : world -> X) : WM X := fun w => (w, Ok (f w)).
Definition wassert (b : bool) : WM unit := if b then wret tt else wraise AssertionError.
Definition lift {X} (m : M X) : WM X :=
  fun w => let (h, r) := m (w_heap w) in (mkWorld h (w_names w) (w_nnames w) (w_ftn w) (w_nftn w), r).
Definition setF (f : nat) (g : ftn -> ftn) : WM unit :=
  fun w => (mkWorld (w_heap w) (w_names w) (w_nnames w) (upd (w_ftn w) f (g (w_ftn w f))) (w_nftn w), Ok tt).
Definition setNames (n : nat) (l : list string) : WM unit :=
  fun w => (mkWorld (w_heap w) (upd (w_names w) n l) (w_nnames w) (w_ftn w) (w_nftn w), Ok tt).

Definition set_locked (b : bool) (r : ftn) : ftn :=
  mkFtn (f_names r) (f_seq r) (f_real r) (f_links r) (f_dims r) b (f_changed r) (f_before r) (f_after r) (f_out r) (f_typ r).
Definition set_changed (b : bool) (r : ftn) : ftn :=
  mkFtn (f_names r) (f_seq r) (f_real r) (f_links r) (f_dims r) (f_locked r) b (f_before r) (f_after r) (f_out r) (f_typ r).
Definition set_seq (s : option (list (nat * nat))) (r : ftn) : ftn :=
  mkFtn (f_names r) s (f_real r) (f_links r) (f_dims r) (f_locked r) (f_changed r) (f_before r) (f_after r) (f_out r) (f_typ r).
Definition set_dims (d : list (pname * nat)) (r : ftn) : ftn :=
  mkFtn (f_names r) (f_seq r) (f_real r) (f_links r) d (f_locked r) (f_changed r) (f_before r) (f_after r) (f_out r) (f_typ r).
Definition set_links (l : list link) (r : ftn) : ftn :=
  mkFtn (f_names r) (f_seq r) (f_real r) l (f_dims r) (f_locked r) (f_changed r) (f_before r) (f_after r) (f_out r) (f_typ r).
Definition set_before (l : list (string * string * string)) (r : ftn) : ftn :=
  mkFtn (f_names r) (f_seq r) (f_real r) (f_links r) (f_dims r) (f_locked r) (f_changed r) l (f_after r) (f_out r) (f_typ r).
Definition set_after (l : list (string * string * string)) (r : ftn) : ftn :=
  mkFtn (f_names r) (f_seq r) (f_real r) (f_links r) (f_dims r) (f_locked r) (f_changed r) (f_before r) l (f_out r) (f_typ r).
Definition set_out (l : list (list pname * string)) (r : ftn) : ftn :=
  mkFtn (f_names r) (f_seq r) (f_real r) (f_links r) (f_dims r) (f_locked r) (f_changed r) (f_before r) (f_after r) l (f_typ r).

Local Notation "x <- m ;; k" := (wbind m (fun x => k)) (at level 100, m at next level, right associativity).
Local Notation "m ;;; k" := (wbind m (fun _ => k)) (at level 100, right associativity).

(** tensornetwork.py 10-29 [__init__]; the argument tensorNames is a list object or left out *)
Definition newFtn (names : option nat) (real : bool) (typ : nat) : WM nat :=
  fun w => (mkWorld (w_heap w) (w_names w) (w_nnames w)
              (upd (w_ftn w) (w_nftn w)
                 (mkFtn (match names with Some n => n | None => 0 end) None real [] [] false false [] [] []
                    (if real then None else Some typ))) (S (w_nftn w)), Ok (w_nftn w)).
(** a list display in the calling program, making a new list object *)
Definition newList (l : list string) : WM nat :=
  fun w => (mkWorld (w_heap w) (upd (w_names w) (w_nnames w) l) (S (w_nnames w)) (w_ftn w) (w_nftn w), Ok (w_nnames w)).

(** tensornetwork.py 35-36 [checkLock] *)
Definition checkLock (f : nat) : WM unit := b <- wreads (fun w => f_locked (w_ftn w f)) ;; wassert (negb b).
Definition namesOf (w : world) (f : nat) : list string := w_names w (f_names (w_ftn w f)).

(** tensornetwork.py 38-46 *)
Definition addTensor (f : nat) (name : string) : WM unit :=
  checkLock f ;;; r <- wreads (fun w => w_ftn w f) ;; l <- wreads (fun w => namesOf w f) ;;
  setNames (f_names r) (l ++ [name]).
Definition removeTensor (f : nat) (name : string) : WM unit :=
  checkLock f ;;; r <- wreads (fun w => w_ftn w f) ;; l <- wreads (fun w => namesOf w f) ;;
  match remove_one name l with None => wraise AssertionError | Some l' => setNames (f_names r) l' end.
(** tensornetwork.py 48-51 *)
Definition lock (f : nat) : WM unit := setF f (set_locked true).
Definition unlock (f : nat) : WM unit := setF f (set_locked false).

Definition tagged (t s : string) : string := (t ++ "-" ++ s)%string.
(** tensornetwork.py 53-56 *)
Definition addLink (f : nat) (aName aLeg bName bLeg : string) : WM unit :=
  checkLock f ;;; setF f (fun r => set_links (f_links r ++ [((aName, tagged aName aLeg), (bName, tagged bName bLeg))]) r).
(** tensornetwork.py 58-70; list.remove raises ValueError when the element is missing *)
Definition addPre (f : nat) (name leg new : string) : WM unit :=
  checkLock f ;;; setF f (fun r => set_before (f_before r ++ [(name, leg, new)]) r).
Definition addPost (f : nat) (name leg new : string) : WM unit :=
  checkLock f ;;; setF f (fun r => set_after (f_after r ++ [(name, leg, new)]) r).
Definition removePre (f : nat) (name leg new : string) : WM unit :=
  checkLock f ;;; r <- wreads (fun w => w_ftn w f) ;;
  match remove_one (name, leg, new) (f_before r) with None => wraise ValueError | Some l => setF f (set_before l) end.
Definition removePost (f : nat) (name leg new : string) : WM unit :=
  checkLock f ;;; r <- wreads (fun w => w_ftn w f) ;;
  match remove_one (name, leg, new) (f_after r) with None => wraise ValueError | Some l => setF f (set_after l) end.
(** tensornetwork.py 72-74 *)
Definition addOut (f : nat) (labs : list pname) (new : string) : WM unit :=
  checkLock f ;;; setF f (fun r => set_out (f_out r ++ [(labs, new)]) r).

(** tensornetwork.py 80-82: one leg; the state is bondDims and changed.  A dictionary is the list of its assignments; the last one
    for a key counts. *)
Definition dictSet {X Y} `{Dec X} (m : list (X * Y)) (x : X) (y : Y) : list (X * Y) := m ++ [(x, y)].
Definition loadLeg (h : heap) (st : list (pname * nat) * bool) (l : lid) : list (pname * nat) * bool :=
  let (m, ch) := st in
  (dictSet m (legname h l) (legdim h l),
   match dictGet m (legname h l) with
   | None => true
   | Some d => ch || negb (Nat.eqb (legdim h l) d)
   end).
(** tensornetwork.py 76-82 [loadBondDims] *)
Definition loadBondDims (h : heap) (loc : list (string * tid)) (st : list (pname * nat) * bool) : list (pname * nat) * bool :=
  fold_left (fun st p => fold_left (loadLeg h) (tlegs h (snd p)) st) loc st.

(** localTensors[name] *)
Definition localGet (loc : list (string * tid)) (name : string) : M tid :=
  match dictGet loc name with Some t => ret t | None => raise KeyError end.
(** tensornetwork.py 100-102: copies, in the order of the dictionary *)
Definition localCopies (d : list (string * tid)) : M (list (string * tid)) :=
  mapM (fun p => bind (copy (snd p)) (fun c => ret (fst p, c))) d.
(** tensornetwork.py 104-105 *)
Definition preNames (loc : list (string * tid)) (before : list (string * string * string)) : M unit :=
  iterM (fun e => let '(t, a, b) := e in bind (localGet loc t) (fun c => renameLabel c (NStr a) (NStr b))) before.
(** tensornetwork.py 107-108 *)
Definition tagAll (loc : list (string * tid)) : M unit := iterM (fun p => addTensorTag (snd p) (fst p)) loc.
(** tensornetwork.py 110-113 *)
Definition linkAll (loc : list (string * tid)) (links : list link) : M unit :=
  iterM (fun e => let '((ta, la), (tb, lb)) := e in
    bind (localGet loc ta) (fun ca => bind (localGet loc tb) (fun cb =>
    bind (makeLink [RStr la] [RStr lb] (Some ca) (Some cb)) (fun _ => ret tt)))) links.
(** tensornetwork.py 84-88, 128-132 *)
Definition outLabel (lab : pname) : pname := match lab with NPair a b => NStr (tagged a b) | n => n end.
Definition postOut (res : tid) (out : list (list pname * string)) : M unit :=
  iterM (fun e => bind (outProductLabels res (map outLabel (fst e)) (NStr (tagged "res" (snd e)))) (fun _ => ret tt)) out.
(** tensornetwork.py 135-136 *)
Definition postNames (res : tid) (after : list (string * string * string)) : M unit :=
  iterM (fun e => let '(t, a, b) := e in renameLabel res (NStr (tagged t a)) (NStr (tagged t b))) after.

(** tensornetwork.py 90-140 [contract] *)
Definition contract (f : nat) (d : list (string * tid)) (removeTag : bool) : WM tid :=
  lock f ;;;
  names <- wreads (fun w => namesOf w f) ;;
  wassert (compareLists names (map fst d)) ;;;
  r <- wreads (fun w => w_ftn w f) ;;
  loc <- lift (localCopies d) ;;
  lift (preNames loc (f_before r)) ;;;
  lift (tagAll loc) ;;;
  lift (linkAll loc (f_links r)) ;;;
  h <- wreads w_heap ;;
  setF f (fun r => let (m, ch) := loadBondDims h loc (f_dims r, false) in set_dims m (set_changed ch r)) ;;;
  ts <- lift (mapM (localGet loc) names) ;;
  r <- wreads (fun w => w_ftn w f) ;;
  sq <- match f_seq r with
        | Some sq => if f_real r && f_changed r then
                       p <- lift (readsR (fun h => generateOptimalSequence symdiff fuel h ts false (f_typ r))) ;;
                       setF f (set_seq (Some (fst p))) ;;; wret (fst p)
                     else wret sq
        | None => p <- lift (readsR (fun h => generateOptimalSequence symdiff fuel h ts false (f_typ r))) ;;
                  setF f (set_seq (Some (fst p))) ;;; wret (fst p)
        end ;;
  res <- lift (contractWithSequence symdiff fuel ts (Some sq) false (Some 10) true) ;;
  lift (postOut res (f_out r)) ;;;
  lift (postNames res (f_after r)) ;;;
  (if removeTag then lift (removeTensorTag res) else wret tt) ;;;
  wret res.

(** one operation of a program using networks: making lists and networks, editing, contracting; any change to the
    tensors themselves between two operations on networks is [OHeap] *)
Inductive op :=
| ONewList (l : list string) | ONew (names : option nat) (real : bool) (typ : nat)
| OAdd (f : nat) (name : string) | ORemove (f : nat) (name : string)
| OLock (f : nat) | OUnlock (f : nat)
| OLink (f : nat) (a la b lb : string)
| OPre (f : nat) (name leg new : string) | OPost (f : nat) (name leg new : string)
| ORemPre (f : nat) (name leg new : string) | ORemPost (f : nat) (name leg new : string)
| OOut (f : nat) (labs : list pname) (new : string)
| OContract (f : nat) (d : list (string * tid)) (removeTag : bool)
| OHeap (g : heap -> heap).
Definition wvoid {X} (m : WM X) : WM unit := x <- m ;; wret tt.
Definition perform (o : op) : WM unit :=
  match o with
  | ONewList l => wvoid (newList l)
  | ONew n r t => wvoid (newFtn n r t)
  | OAdd f n => addTensor f n
  | ORemove f n => removeTensor f n
  | OLock f => lock f
  | OUnlock f => unlock f
  | OLink f a la b lb => addLink f a la b lb
  | OPre f n l m => addPre f n l m
  | OPost f n l m => addPost f n l m
  | ORemPre f n l m => removePre f n l m
  | ORemPost f n l m => removePost f n l m
  | OOut f l n => addOut f l n
  | OContract f d b => wvoid (contract f d b)
  | OHeap g => fun w => (mkWorld (g (w_heap w)) (w_names w) (w_nnames w) (w_ftn w) (w_nftn w), Ok tt)
  end.
(** the program goes on after an exception *)
Definition run (os : list op) (w : world) : world := fold_left (fun w o => fst (perform o w)) os w.
End Ftn.
Arguments world A : clear implicits.
Arguments op A : clear implicits.
