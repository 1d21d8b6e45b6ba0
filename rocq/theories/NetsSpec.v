(** Vocabulary for the ready-made networks of the lattice algorithms. *)
From Coq Require Import List Arith Bool String.
From Verif Require Import Base Sums NdModel HeapModel ContractModel TensorSpec NetSpec FtnModel FtnNetSpec NamedSpec.
Import ListNotations.
Local Open Scope nat_scope.
Local Open Scope string_scope.
Local Open Scope list_scope.

(** the structure of a network: tensors, links, outer products and final renamings *)
Record net : Type := mkNet { n_names : list string; n_links : list plink; n_out : list (list pname * string); n_after : list (string * string * string) }.

Section Sp.
Context {A : Type} {HA : SR A}.
Notation heap := (heap A).

(** an ordinary tensor with data *)
Definition dense (h : heap) (t : tid) : Prop := wf_tensor h t /\ t_like (tens h t) = false /\ t_diag (tens h t) = false.
(** a dense tensor with exactly the legs listed, in any order *)
Definition dense_legs (h : heap) (t : tid) (m : list (string * nat)) : Prop := dense h t /\ has_legs h t m.

(** a new network was made and nothing else was touched *)
Record made (w w' : world A) (f : nat) (names : list string) (links : list plink) (out : list (list pname * string))
    (after : list (string * string * string)) : Prop := {
  ma_is : ftn_is w' f names links out after;
  ma_new : f = w_nftn w /\ w_nftn w' = S f /\ f_seq (w_ftn w' f) = None;
  ma_heap : w_heap w' = w_heap w;
  ma_nets : forall g, g <> f -> w_ftn w' g = w_ftn w g;
  ma_own : f_names (w_ftn w' f) = w_nnames w;
  ma_lists : w_nnames w' = S (w_nnames w) /\ forall n, n < w_nnames w -> w_names w' n = w_names w n }.
(** network [f] has structure [N] and is ready for use; network [f] was made with structure [N] and nothing else happened *)
Definition is_net (w : world A) (f : nat) (N : net) : Prop := ftn_is w f (n_names N) (n_links N) (n_out N) (n_after N).
Definition made_net (w w' : world A) (f : nat) (N : net) : Prop := made w w' f (n_names N) (n_links N) (n_out N) (n_after N).
End Sp.

(** ** The ready-made networks *)
(** three triangles around a vertex become one *)
Definition triangle_net : net := mkNet ["u"; "l"; "r"]
  [(("u", "2"), ("l", "3")); (("u", "3"), ("r", "2")); (("l", "2"), ("r", "3"))]
  [] [("u", "1", "1"); ("l", "1", "2"); ("r", "1", "3")].
(** four squares become one, with both legs of a side joined *)
Definition square_net : net := mkNet ["ul"; "ur"; "dr"; "dl"]
  [(("ul", "d"), ("dl", "u")); (("ul", "r"), ("ur", "l")); (("ur", "d"), ("dr", "u")); (("dl", "r"), ("dr", "l"))]
  [([NStr "ul-u"; NStr "ur-u"], "u"); ([NStr "ul-l"; NStr "dl-l"], "l"); ([NStr "dl-d"; NStr "dr-d"], "d"); ([NStr "ur-r"; NStr "dr-r"], "r")] [].
(** the four halves around a plaquette become one square *)
Definition square_out_net : net := mkNet ["ul"; "ur"; "dr"; "dl"]
  [(("ul", "d"), ("dl", "u")); (("ul", "r"), ("ur", "l")); (("ur", "d"), ("dr", "u")); (("dl", "r"), ("dr", "l"))]
  [] [("ul", "o", "u"); ("ur", "o", "r"); ("dl", "o", "l"); ("dr", "o", "d")].
(** a tensor is put on a horizontal edge *)
Definition hEdge_extend_net : net := mkNet ["p"; "w"]
  [(("p", "u"), ("w", "d"))]
  [([NStr "p-l"; NStr "w-l"], "l"); ([NStr "p-r"; NStr "w-r"], "r")] [].
(** a tensor is put on a vertical edge *)
Definition vEdge_extend_net : net := mkNet ["p"; "w"]
  [(("p", "r"), ("w", "l"))]
  [([NStr "p-u"; NStr "w-u"], "u"); ([NStr "p-d"; NStr "w-d"], "d")] [].
(** two edges and a tensor are put on a corner *)
Definition corner_extend_net : net := mkNet ["c"; "ph"; "pv"; "w"]
  [(("c", "u"), ("pv", "d")); (("c", "r"), ("ph", "l")); (("pv", "r"), ("w", "l")); (("ph", "u"), ("w", "d"))]
  [([NStr "pv-u"; NStr "w-u"], "u"); ([NStr "ph-r"; NStr "w-r"], "r")] [].
(** the two ends of a horizontal edge are projected *)
Definition hEdge_build_net : net := mkNet ["p"; "al"; "ar"]
  [(("al", "r"), ("p", "l")); (("ar", "r"), ("p", "r"))]
  [] [("ar", "l", "r")].
(** the two ends of a vertical edge are projected *)
Definition vEdge_build_net : net := mkNet ["p"; "au"; "ad"]
  [(("ad", "u"), ("p", "d")); (("au", "u"), ("p", "u"))]
  [] [("au", "d", "u")].
(** four corners *)
Definition evenZ_net : net := mkNet ["alu"; "ald"; "aru"; "ard"]
  [(("alu", "u"), ("ald", "u")); (("aru", "u"), ("ard", "u")); (("alu", "r"), ("aru", "r")); (("ald", "r"), ("ard", "r"))]
  [] [].
(** four corners, four edges and one tensor *)
Definition oddZ_net : net := mkNet ["alu"; "ald"; "aru"; "ard"; "pu"; "pd"; "pl"; "pr"; "w"]
  [(("pu", "l"), ("alu", "r")); (("pu", "r"), ("aru", "r")); (("pd", "l"), ("ald", "r")); (("pd", "r"), ("ard", "r")); (("pl", "u"), ("alu", "u")); (("pl", "d"), ("ald", "u")); (("pr", "u"), ("aru", "u")); (("pr", "d"), ("ard", "u")); (("pl", "r"), ("w", "l")); (("pr", "r"), ("w", "r")); (("pd", "u"), ("w", "d")); (("pu", "u"), ("w", "u"))]
  [] [].
(** two rows of a column of two, times their transposed *)
Definition horizontal_l_net : net := mkNet ["ul"; "ur"; "dr"; "dl"]
  [(("ul", "d"), ("dl", "u")); (("ul", "r"), ("ur", "r")); (("ur", "d"), ("dr", "u")); (("dl", "r"), ("dr", "r")); (("ul", "u"), ("ur", "u")); (("dl", "d"), ("dr", "d"))]
  [([NStr "ul-l"; NStr "dl-l"], "l"); ([NStr "ur-l"; NStr "dr-l"], "r")] [].
(** two rows of a column of two, times their transposed *)
Definition horizontal_r_net : net := mkNet ["ul"; "ur"; "dr"; "dl"]
  [(("ul", "d"), ("dl", "u")); (("ul", "l"), ("ur", "l")); (("ur", "d"), ("dr", "u")); (("dl", "l"), ("dr", "l")); (("ul", "u"), ("ur", "u")); (("dl", "d"), ("dr", "d"))]
  [([NStr "ur-r"; NStr "dr-r"], "r"); ([NStr "ul-r"; NStr "dl-r"], "l")] [].
(** two columns of a row of two, times their transposed *)
Definition vertical_u_net : net := mkNet ["ul"; "ur"; "dr"; "dl"]
  [(("ul", "d"), ("dl", "d")); (("ul", "r"), ("ur", "l")); (("ur", "d"), ("dr", "d")); (("dl", "r"), ("dr", "l")); (("ul", "l"), ("dl", "l")); (("ur", "r"), ("dr", "r"))]
  [([NStr "ul-u"; NStr "ur-u"], "u"); ([NStr "dl-u"; NStr "dr-u"], "d")] [].
(** two columns of a row of two, times their transposed *)
Definition vertical_d_net : net := mkNet ["ul"; "ur"; "dr"; "dl"]
  [(("ul", "u"), ("dl", "u")); (("ul", "r"), ("ur", "l")); (("ur", "u"), ("dr", "u")); (("dl", "r"), ("dr", "l")); (("ul", "l"), ("dl", "l")); (("ur", "r"), ("dr", "r"))]
  [([NStr "dl-d"; NStr "dr-d"], "d"); ([NStr "ul-d"; NStr "ur-d"], "u")] [].
(** one tensor on top of another, with projected sides *)
Definition hotrg_h_net : net := mkNet ["u"; "d"; "l"; "r"]
  [(("u", "l"), ("l", "u")); (("u", "r"), ("r", "u")); (("d", "l"), ("l", "d")); (("d", "r"), ("r", "d")); (("u", "d"), ("d", "u"))]
  [] [("l", "o", "l"); ("r", "o", "r")].
(** one tensor left of another, with projected top and bottom *)
Definition hotrg_v_net : net := mkNet ["u"; "d"; "l"; "r"]
  [(("u", "l"), ("l", "u")); (("u", "r"), ("r", "u")); (("d", "l"), ("l", "d")); (("d", "r"), ("r", "d")); (("l", "r"), ("r", "l"))]
  [] [("u", "o", "u"); ("d", "o", "d")].
(** the environment of a projector of the tensor network renormalization *)
Definition tnr_env_net : net := mkNet ["uul"; "uur"; "udl"; "udr"; "dul"; "dur"; "ddl"; "ddr"]
  [(("udl", "r"), ("dul", "r")); (("udl", "d"), ("dul", "d")); (("udr", "r"), ("dur", "r")); (("udr", "d"), ("dur", "d")); (("udl", "l"), ("udr", "l")); (("dul", "l"), ("dur", "l")); (("uur", "l"), ("ddr", "l")); (("uur", "u"), ("ddr", "u")); (("udr", "u"), ("uur", "d")); (("dur", "u"), ("ddr", "d")); (("uul", "r"), ("uur", "r")); (("uul", "d"), ("udl", "u")); (("ddl", "r"), ("ddr", "r")); (("ddl", "d"), ("dul", "u"))]
  [([NStr "uul-l"; NStr "uul-u"], "1"); ([NStr "ddl-l"; NStr "ddl-u"], "2")] [].
