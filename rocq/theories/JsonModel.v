(** Model of src/simsopt/_core/json.py: GSONable.as_dict 118-178, recursive_as_dict 139-152, SIMSON
    300-350, GSONDecoder.process_decoded 435-520, GSONable.from_dict 204-212, _serialize_callable 660-690,
    redirects 52-75 and 452-457.

    Values are atoms (numbers, strings, None, numpy arrays: anything JSON carries unchanged), lists
    (tuples become lists), dicts, references to GSONable objects, and bound methods.  An object has a
    class, a name and its constructor arguments in order.  Not modelled: the JSON text itself, orjson,
    datetime/UUID/pandas/bson values, Enum, *args/**kwargs of constructors, [Optimizable.as_dict] adds the
    DOFs as one more field (optimizable.py:1572-1577), represented by an ordinary field.
    "@module" and "@class" (or "@callable") always occur together and are merged into one key. *)
From Verif Require Import ListAux DofsModel.

(** dictionary keys: the special ones and all other strings *)
Inductive jkey := KType | KValue | KClass | KObjName | KCallable | KBound | KUser (n : nat).
Definition jkey_eqb (a b : jkey) : bool :=
  match a, b with
  | KType, KType | KValue, KValue | KClass, KClass | KObjName, KObjName | KCallable, KCallable | KBound, KBound => true
  | KUser n, KUser m => n =? m
  | _, _ => false
  end.
(** [k.startswith("@")] *)
Definition is_at (k : jkey) : bool := match k with KClass | KObjName | KCallable | KBound => true | _ => false end.

Inductive val := VAtom (a : nat) | VList (l : list val) | VDict (l : list (jkey * val)) | VObj (o : nat) | VMeth (o m : nat).
Record obj := mkObj { o_cls : nat; o_name : nat; o_fields : list (nat * val) }.
(** the atom "ref" *)
Definition REF : nat := 0.
Inductive json := JAtom (a : nat) | JList (l : list json) | JDict (l : list (jkey * json)).

Fixpoint jget (k : jkey) (d : list (jkey * json)) : option json :=
  match d with [] => None | (k', v) :: r => if jkey_eqb k' k then Some v else jget k r end.

Section Encode.
Variable S : nat -> obj.
Notation serd := (list (nat * json)).
Fixpoint get {A} (n : nat) (d : list (nat * A)) : option A :=
  match d with [] => None | (n', v) :: r => if n' =? n then Some v else get n r end.
Fixpoint put {A} (n : nat) (v : A) (d : list (nat * A)) : list (nat * A) :=
  match d with [] => [(n, v)] | (n', v') :: r => if n' =? n then (n', v) :: r else (n', v') :: put n v r end.

(** run [f] over a list, threading the table of serialized objects *)
Fixpoint mapS {A B} (f : serd -> A -> option (B * serd)) (ser : serd) (l : list A) : option (list B * serd) :=
  match l with
  | [] => Some ([], ser)
  | a :: r => match f ser a with
              | None => None
              | Some (b, ser1) => match mapS f ser1 r with None => None | Some (bs, ser2) => Some (b :: bs, ser2) end
              end
  end.

(** recursive_as_dict; [fuel] is the recursion limit *)
Fixpoint enc (fuel : nat) (ser : serd) (v : val) : option (json * serd) :=
  match fuel with
  | 0 => None
  | Datatypes.S fuel =>
    (** 118-178 as_dict: class, name, then the constructor arguments in order *)
    let as_dict o ser :=
      match mapS (fun ser f => match enc fuel ser (snd f) with None => None | Some (j, ser') => Some ((KUser (fst f), j), ser') end)
                 ser (o_fields (S o)) with
      | None => None
      | Some (fs, ser') => Some (JDict ((KClass, JAtom (o_cls (S o))) :: (KObjName, JAtom (o_name (S o))) :: fs), ser')
      end in
    match v with
    | VAtom a => Some (JAtom a, ser)
    | VList l => match mapS (enc fuel) ser l with None => None | Some (js, ser') => Some (JList js, ser') end
    | VDict l => match mapS (fun ser e => match enc fuel ser (snd e) with None => None | Some (j, ser') => Some ((fst e, j), ser') end) ser l with
                 | None => None | Some (js, ser') => Some (JDict js, ser') end
    | VObj o =>
      match get (o_name (S o)) ser with
      | Some _ => Some (JDict [(KType, JAtom REF); (KValue, JAtom (o_name (S o)))], ser)
      | None => match as_dict o ser with
                | None => None
                | Some (d, ser') => Some (JDict [(KType, JAtom REF); (KValue, JAtom (o_name (S o)))], put (o_name (S o)) d ser')
                end
      end
    | VMeth o m =>    (* _serialize_callable: the bound object is written out in place *)
      match as_dict o ser with
      | None => None
      | Some (d, ser') => Some (JDict [(KCallable, JAtom m); (KBound, d)], ser')
      end
    end
  end.
(** SIMSON.as_dict: the graph and the table of objects *)
Definition simson (fuel : nat) (v : val) : option (json * serd) := enc fuel [] v.
End Encode.

(** ** Decoding.  New objects are numbered in order of construction; [recon] is recon_objs. *)
Record dst := mkDst { recon : list (nat * val); made : list obj }.
Section Decode.
Variable ser : list (nat * json).
(** process_decoded on references that are not atoms, missing table entries, ...: python raises *)
Inductive dres (A : Type) := DNoFuel | DErr (e : err) | DOk (a : A) (t : dst).
Arguments DNoFuel {A}. Arguments DErr {A}. Arguments DOk {A}.

Fixpoint mapD {A B} (f : dst -> A -> dres B) (t : dst) (l : list A) : dres (list B) :=
  match l with
  | [] => DOk [] t
  | a :: r => match f t a with
              | DNoFuel => DNoFuel | DErr e => DErr e
              | DOk b t1 => match mapD f t1 r with DNoFuel => DNoFuel | DErr e => DErr e | DOk bs t2 => DOk (b :: bs) t2 end
              end
  end.

Definition put_recon n v t := mkDst (put n v (recon t)) (made t).

Fixpoint dec (fuel : nat) (t : dst) (j : json) : dres val :=
  match fuel with
  | 0 => DNoFuel
  | S fuel =>
    match j with
    | JAtom a => DOk (VAtom a) t
    | JList l => match mapD (dec fuel) t l with DNoFuel => DNoFuel | DErr e => DErr e | DOk vs t' => DOk (VList vs) t' end
    | JDict d =>
      match jget KType d, jget KValue d with
      | Some (JAtom 0), Some (JAtom n) =>                            (* "$type" == "ref" *)
        match get n (recon t) with
        | Some v => DOk v t
        | None => match get n ser with
                  | None => DErr EKey
                  | Some sub => match dec fuel t sub with
                                | DNoFuel => DNoFuel | DErr e => DErr e
                                | DOk v t' => DOk v (put_recon n v t')
                                end
                  end
        end
      | Some (JAtom 0), _ => DErr EKey
      | _, _ =>
        match jget KClass d with
        | Some (JAtom c) =>                                          (* "@module" and "@class": cls.from_dict *)
          match mapD (fun t e => match dec fuel t (snd e) with DNoFuel => DNoFuel | DErr e => DErr e
                                 | DOk v t' => match fst e with KUser n => DOk (n, v) t' | _ => DErr EType end end)
                     t (filter (fun e => negb (is_at (fst e))) d) with
          | DNoFuel => DNoFuel | DErr e => DErr e
          | DOk fs t' =>
            let v := VObj (length (made t')) in
            let t'' := mkDst (recon t') (made t' ++ [mkObj c (length (made t')) fs]) in
            match jget KObjName d with
            | Some (JAtom n) => DOk v (put_recon n v t'')
            | _ => DOk v t''
            end
          end
        | Some _ => DErr EType
        | None =>
          match jget KCallable d, jget KBound d with
          | Some (JAtom m), Some b =>                                (* bound method: decode the object, getattr *)
            match dec fuel t b with
            | DNoFuel => DNoFuel | DErr e => DErr e
            | DOk (VObj o) t' => DOk (VMeth o m) t'
            | DOk _ _ => DErr EAttribute
            end
          | _, _ =>
            match mapD (fun t e => match dec fuel t (snd e) with DNoFuel => DNoFuel | DErr e => DErr e | DOk v t' => DOk (fst e, v) t' end) t d with
            | DNoFuel => DNoFuel | DErr e => DErr e | DOk vs t' => DOk (VDict vs) t'
            end
          end
        end
      end
    end
  end.
(** SIMSON.from_dict *)
Definition load (fuel : nat) (graph : json) : dres val := dec fuel (mkDst [] []) graph.
End Decode.
Arguments DNoFuel {A}. Arguments DErr {A}. Arguments DOk {A}.

(** 452-457: REDIRECT maps old module -> old class -> (new module, new class); the code looks up the
    class under the already replaced module *)
Definition redirects := list (nat * list (nat * (nat * nat))).
Definition redirect (R : redirects) (m c : nat) : (nat * nat) + err :=
  match get m R with
  | None => inl (m, c)
  | Some l => match get c l with
              | None => inl (m, c)
              | Some (m', _) => match get m' R with
                                | None => inr EKey
                                | Some l' => match get c l' with None => inr EKey | Some (_, c') => inl (m', c') end
                                end
              end
  end.
