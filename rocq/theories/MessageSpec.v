(** Independent specification of MIME trees and of header selection. *)
From Verif Require Import Base Lib Message.

(** [b] is a direct subpart of [a]. *)
Definition child (parts : list part) (a b : nat) : Prop :=
  exists p, nth_error parts a = Some p /\ In b (part_children p).
(** [b] is [a] or a descendant of [a]. *)
Inductive reaches (parts : list part) (a : nat) : nat -> Prop :=
| reach_self : a < length parts -> reaches parts a a
| reach_child : forall b c, reaches parts a b -> child parts b c -> reaches parts a c.

(** A well-formed MIME tree: subparts come after their container, each part
    has at most one container and appears in it once. *)
Record well_formed (parts : list part) : Prop := {
  wf_order : forall a b, child parts a b -> a < b < length parts;
  wf_parent : forall a1 a2 b, child parts a1 b -> child parts a2 b -> a1 = a2;
  wf_once : forall a p, nth_error parts a = Some p -> NoDup (part_children p)
}.

(** Well-formedness of a message and of all messages nested in it. *)
Inductive wf_deep : list part -> Prop :=
| wd : forall parts, well_formed parts ->
    (forall p ps, In p parts -> p_body p = BMessage ps -> wf_deep ps) -> wf_deep parts.

(** The parts below a part, nested messages included, each with its path: the
    part numbers from the outermost message inwards. *)
Inductive deep_at : list part -> nat -> list nat -> part -> Prop :=
| da_here : forall parts root i p,
    reaches parts root i -> nth_error parts i = Some p -> deep_at parts root [i] p
| da_nested : forall parts root i p ps path q,
    reaches parts root i -> nth_error parts i = Some p -> p_body p = BMessage ps ->
    deep_at ps 0 path q -> deep_at parts root (i :: path) q.

(** The headers of one part named [name]. *)
Definition named (name : text) (headers : list header) : list header :=
  filter (fun h => hn_eqb (h_name h) name) headers.
(** [h] is at position [pos] and is selected by ':index' ([None]: no ':index';
    [Some n] with n > 0: the n-th of that name from the top; n < 0: from the
    bottom). *)
Definition selected (index : option Z) (name : text) (headers : list header) (pos : nat) (h : header) : Prop :=
  nth_error headers pos = Some h /\ hn_eqb (h_name h) name = true /\
  match index with
  | None => True
  | Some n =>
      ((0 < n)%Z /\ Z.of_nat (length (named name (firstn pos headers))) = (n - 1)%Z) \/
      ((n < 0)%Z /\ Z.of_nat (length (named name (skipn (S pos) headers))) = (- n - 1)%Z)
  end.

(** The parts a header test looks at: the current one and, with ':anychild', its
    descendants. *)
Definition looked_at (parts : list part) (current : nat) (anychild : bool) (i : nat) (p : part) : Prop :=
  nth_error parts i = Some p /\ (i = current \/ anychild = true /\ reaches parts current i).
