(** Model of runlmc/util/docs.py. *)

From Coq Require Import List Arith String.
From Verif Require Import Base.
Import ListNotations.

(** Python objects as far as [inherit_doc] looks at them.  Functions are
    mutable objects with an identity; [docs] maps a function to its current
    [__doc__].  A property has its three functions (or None) and its own
    [__doc__].  [Other] is any other attribute: its truth value and the
    [__doc__] that [getattr] finds. *)
Definition addr := nat.
Definition docs := addr -> option string.
Inductive attr :=
| Func (f : addr)
| Property (fget fset fdel : option addr) (doc : option string)
| Other (truth : bool) (doc : option string).

(** [not d] *)
Definition no_doc (d : option string) : bool := match d with None => true | Some s => String.eqb s "" end.

(** [fget.__doc__]; [None.__doc__] is None. *)
Definition fget_doc (h : docs) (fget : option addr) : option string := match fget with Some f => h f | None => None end.

(** [getattr(a, '__doc__', None)] and the truth value of an attribute *)
Definition attr_doc (h : docs) (a : attr) : option string := match a with Func f => h f | Property _ _ _ d => d | Other _ d => d end.
Definition truth (a : attr) : bool := match a with Other t _ => t | _ => true end.

(** A base class is what [getattr(parent, name, None)] finds in it, [None]
    for a missing attribute and for None. *)
Definition base := string -> option attr.

(** docs.py:24-28: the loop over the bases for a function *)
Fixpoint inherit_func (h : docs) (f : addr) (name : string) (bases : list base) : docs :=
  match bases with
  | [] => h
  | parent :: bases =>
    match parent name with
    | Some parfunc =>
      if (truth parfunc && negb (no_doc (attr_doc h parfunc)))%bool
      then fun g => if Nat.eqb g f then attr_doc h parfunc else h g
      else inherit_func h f name bases
    | None => inherit_func h f name bases
    end
  end.

(** docs.py:29-38: the loop over the bases for a property; anything but a
    property has no [fget]. *)
Fixpoint inherit_prop (h : docs) (fget fset fdel : option addr) (doc : option string) (name : string) (bases : list base) : result attr :=
  match bases with
  | [] => Ok (Property fget fset fdel doc)
  | parent :: bases =>
    match parent name with
    | Some parprop =>
      if truth parprop then
        match parprop with
        | Property pget _ _ _ =>
          if no_doc (fget_doc h pget) then inherit_prop h fget fset fdel doc name bases
          else Ok (Property fget fset fdel (fget_doc h pget))
        | _ => Err AttributeError
        end
      else inherit_prop h fget fset fdel doc name bases
    | None => inherit_prop h fget fset fdel doc name bases
    end
  end.

(** docs.py:12-40 [inherit_doc].  [items] is [vars(cls).items()]; the loop
    assigns only to the attribute it is looking at, which changes neither the
    order nor the attributes still to come.  The result is the state of the
    functions and the attributes of the class afterwards. *)
Fixpoint inherit_doc (h : docs) (items : list (string * attr)) (bases : list base) : result (docs * list (string * attr)) :=
  match items with
  | [] => Ok (h, [])
  | (name, a) :: items =>
    let! (h, a) :=
      match a with
      | Func f => if no_doc (h f) then Ok (inherit_func h f name bases, a) else Ok (h, a)
      | Property fget fset fdel doc =>
        if no_doc (fget_doc h fget) then let! a := inherit_prop h fget fset fdel doc name bases in Ok (h, a) else Ok (h, a)
      | Other _ _ => Ok (h, a)
      end in
    let! (h, rest) := inherit_doc h items bases in
    Ok (h, (name, a) :: rest)
  end.
