(** Specification: a message as a tree of parts, and what each edit makes of the tree. *)
From Verif Require Import Base Lib Var Value Glob Comparator Message EditHeader Mime Build BuildSpec.
Import ListNotations.
Local Open Scope list_scope.

(** The bytes of a header field: given by the engine or the script; of the original message, under another
    name; or of the original message. *)
Definition shown (raw : list N) (h : fheader) : list N :=
  if Nat.eqb (fh_end h) 0 then field (h_name (fh_view h)) (as_text (h_val (fh_view h)))
  else if Nat.eqb (fh_field h) (fh_start h) then written_as raw (h_name (fh_view h)) h
  else written raw h.
(** One addheader or deleteheader, by any script. *)
Inductive header_edit (L : rustlib) (rx : text -> text -> option (list (option text))) (M : mailparser) (st st' : fstate) : Prop :=
| he_add prot max n v l id : fadd_header L M prot max n v l id st = Some st' -> header_edit L rx M st st'
| he_delete prot n i a c m k id : fdelete_header L rx M prot n i a c m k id st = Some st' -> header_edit L rx M st st'.
(** A Content-Type the engine wrote. *)
Definition own_type (h : fheader) : bool := Nat.eqb (fh_end h) 0 && (fh_other h && teqb_ic (h_name (fh_view h)) (lit "Content-Type")).
Definition keeps_types (st st' : fstate) : Prop :=
  forall id, filter own_type (headers_at st' id) = filter own_type (headers_at st id).

(** The tree [t], followed by [tail], after any number of edits in any order: header edits (that do not remove
    a Content-Type the engine wrote), replacements of the whole message or of a part without parts of its own,
    enclosures (without a Content-Type given by the script), conversions. *)
Inductive tree_of (L : rustlib) (rx : text -> text -> option (list (option text))) (M : mailparser) : fstate -> tree -> list N -> Prop :=
| to_start st t tail :
    parsed (fs_raw st) (fs_parts st) t tail -> (forall i, i < length (fs_parts st) -> In i (ids t)) -> tree_of L rx M st t tail
| to_fields st t tail st' :
    tree_of L rx M st t tail -> header_edit L rx M st st' -> keeps_types st st' ->
    tree_of L rx M st' (with_fields (fun id => map (shown (fs_raw st)) (headers_at st' id)) t) tail
| to_message st t tail E s f b mime st' :
    tree_of L rx M st t tail -> freplace E s f b mime 0 st = Some st' ->
    tree_of L rx M st' (Node 0 (root_fields E (fs_raw st) s f mime (headers_at st 0)) (negb mime) (Leaf (utf8 b))) tail
| to_part st t tail E s f b mime id p st' :
    tree_of L rx M st t tail -> id <> 0 -> nth_error (fs_parts st) id = Some p -> leaf (fp_body p) ->
    freplace E s f b mime id st = Some st' ->
    tree_of L rx M st' (exchange (swapped id (Node id (if mime then [] else [plain_ct]) (negb mime) (Leaf (utf8 b)))) t) tail
| to_enclosed st t tail E hs s b st' :
    tree_of L rx M st t tail -> ~ In 34%N (me_boundary E) ->
    (forall h g, In h hs -> In g (enclose_given L M E h) -> teqb_ic (fst (snd g)) (lit "Content-Type") = false) ->
    fenclose L M E hs s b st = Some st' ->
    tree_of L rx M st'
      (Node 0 (map (fun x => field (fst x) (snd x)) (enclosing_fields L M E st hs s)) false
         (Mixed (me_boundary E)
            [Node 1 [plain_ct] true (Leaf (utf8 b)); Node 2 [field (lit "Content-Type") (lit "message/rfc822")] true (Whole t tail)])) []
| to_converted st t tail E from to d st' cv :
    tree_of L rx M st t tail -> conversion_of from to = Some cv -> fconvert E from to st = Some (d, st') ->
    tree_of L rx M st' (exchange (conversion_result E cv (fs_parts st)) t) tail.
