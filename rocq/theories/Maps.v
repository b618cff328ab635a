(** Go maps with string keys, their iteration, and the attribute maps of /repo/attrs.go and
    /repo/attr.go.  A Go map is a finite map ([gmap] of std++); a [range] loop over a map visits
    its entries in an order chosen by the runtime, each time anew: an arbitrary permutation. *)
From stdpp Require Export gmap.
From Verif Require Export Base AttrNames.

(** map[string]string and Attrs (attrs.go:22: map[Attr]string, Attr being a string type). *)
Notation attrs := (gmap (list Ascii.ascii) (list Ascii.ascii)).
Notation names := (gset (list Ascii.ascii)).

(** The orders chosen by the runtime: the argument [i : nat] numbers the range loops of one call. *)
Record oracle := Oracle {
  o_attrs : nat -> attrs -> list (gostr * gostr);
  o_names : nat -> names -> list gostr }.
Definition fair (o : oracle) : Prop :=
  (forall i m, o_attrs o i m ≡ₚ map_to_list m) /\ (forall i s, o_names o i s ≡ₚ elements s).

(** Error values: the text of the message. *)
Definition err := gostr.

(** attr.go:385- (validAttrs) *)
Definition valid_attrs : list gostr := map lit valid_attr_names.

(** attr.go:23-29 (NewAttr) *)
Definition new_attr (key : gostr) : gostr + err :=
  if existsb (str_eqb key) valid_attrs then inl key
  else inr (key ++ lit " is not a valid attribute").

(** attrs.go:36-43 (Attrs.Add) and 45-47 (add) *)
Definition attrs_add (a : attrs) (field value : gostr) : attrs * option err :=
  match new_attr field with
  | inl k => (<[k := value]> a, None)
  | inr e => (a, Some e)
  end.

(** attrs.go:25-33 (NewAttrs): the range loop over the entries [l]. *)
Fixpoint new_attrs_loop (a : attrs) (l : list (gostr * gostr)) : attrs + err :=
  match l with
  | [] => inl a
  | (k, v) :: l' =>
      match attrs_add a k v with
      | (a', None) => new_attrs_loop a' l'
      | (_, Some e) => inr e
      end
  end.
Definition new_attrs (l : list (gostr * gostr)) : attrs + err := new_attrs_loop ∅ l.

(** attrs.go:50-54 (Extend): range loop over the entries [l] of more *)
Definition extend (a : attrs) (l : list (gostr * gostr)) : attrs :=
  fold_left (fun a kv => <[kv.1 := kv.2]> a) l a.

(** attrs.go:57-63 (Ammend) *)
Definition ammend_attrs (a : attrs) (l : list (gostr * gostr)) : attrs :=
  fold_left (fun a kv => match a !! kv.1 with Some _ => a | None => <[kv.1 := kv.2]> a end) l a.

(** attrs.go:65-71 (toMap), 93-99 (Copy) *)
Definition copy_attrs (l : list (gostr * gostr)) : attrs := fold_left (fun a kv => <[kv.1 := kv.2]> a) l ∅.

(** attrs.go:83-90 (sortedNames), and the sorted key lists of nodes.go:67-78, subgraphs.go:58-69,
    relations.go:57-64, ast/ast.go:381-385: collect the keys in iteration order and sort them.
    (sort.Sort is not stable, but the keys are distinct strings.) *)
Definition sorted_keys (l : list gostr) : list gostr := sort_strings l.

(** The set of keys of a map. *)
Definition keys {A} (m : gmap gostr A) : names := dom m.
