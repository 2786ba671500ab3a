(** Independent specification of wildcard matching (no reference to the model's
    algorithms). *)
From Verif Require Import Base.

(** [glob fold p v]: the text [v] is in the language of the pattern text [p]:
    '*' any text, '?' any one character, backslash-c the character c, other
    characters themselves; literals are compared after [fold]. *)
Inductive glob (fold : ch -> text) : text -> text -> Prop :=
| glob_nil : glob fold [] []
| glob_star : forall p u v, glob fold p v -> glob fold (c_star :: p) (u ++ v)
| glob_quest : forall p c v, glob fold p v -> glob fold (c_quest :: p) (c :: v)
| glob_esc : forall p c v, glob fold p v -> glob fold (c_bslash :: c :: p) (fold c ++ v)
| glob_trailing : glob fold [c_bslash] []      (* a final lone backslash is ignored *)
| glob_lit : forall p c v, c <> c_star -> c <> c_quest -> c <> c_bslash ->
    glob fold p v -> glob fold (c :: p) (fold c ++ v).

(** [globw fold p v ws]: the same, where [v] is a list of characters annotated
    with arbitrary data (folded character first) and [ws] lists, in pattern
    order, the piece of [v] that each wildcard stands for. *)
Inductive globw {A} (fold : ch -> text) : text -> list (ch * A) -> list (list (ch * A)) -> Prop :=
| gw_nil : globw fold [] [] []
| gw_star : forall p u v ws, globw fold p v ws -> globw fold (c_star :: p) (u ++ v) (u :: ws)
| gw_quest : forall p x v ws, globw fold p v ws -> globw fold (c_quest :: p) (x :: v) ([x] :: ws)
| gw_esc : forall p c s v ws, map fst s = fold c -> globw fold p v ws ->
    globw fold (c_bslash :: c :: p) (s ++ v) ws
| gw_trailing : globw fold [c_bslash] [] []
| gw_lit : forall p c s v ws, c <> c_star -> c <> c_quest -> c <> c_bslash ->
    map fst s = fold c -> globw fold p v ws -> globw fold (c :: p) (s ++ v) ws.

(** Lexicographic order on length vectors: "shortest, leftmost first". *)
Inductive lexle : list nat -> list nat -> Prop :=
| lex_nil : forall l, lexle [] l
| lex_lt : forall a b l l', a < b -> lexle (a :: l) (b :: l')
| lex_eq : forall a l l', lexle l l' -> lexle (a :: l) (a :: l').

(** Number of wildcards of a pattern text. *)
Fixpoint wildcards (p : text) : nat :=
  match p with
  | [] => 0
  | c :: p' =>
      if N.eqb c c_bslash then match p' with [] => 0 | _ :: p'' => wildcards p'' end
      else if N.eqb c c_star || N.eqb c c_quest then S (wildcards p') else wildcards p'
  end.

(** Number the texts [ts] from [k] and keep those whose number is requested in
    the bit set [positions]. *)
Fixpoint numbered (positions : N) (k : nat) (ts : list text) : list (nat * text) :=
  match ts with
  | [] => []
  | t :: ts' => if N.testbit positions (N.of_nat k) then (k, t) :: numbered positions (S k) ts'
                else numbered positions (S k) ts'
  end.
