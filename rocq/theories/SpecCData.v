(** What is expected of C data. *)
From Coq Require Import NArith ZArith Bool List.
From Verif Require Import Base SpecText SpecStr SpecValue Heap CData.
Import ListNotations.

(** Every name is a text that a C string can hold. *)
Definition sound (x : c_data) : Prop :=
  sound_text (pluginName x) /\ sound_text (payloadType x) /\ sound_text (cleanUpName x) /\ sound_text (lenName x) /\ sound_text (linkAtName x)
  /\ sound_text (copyAtName x) /\ sound_text (toStringName x) /\ sound_text (compareName x).
Definition same_kind (x y : c_data) : Prop := pluginName x = pluginName y /\ payloadType x = payloadType y.

(** [cmp] orders what satisfies [D]: it always answers, swapping the two turns the
    sign, and it is transitive. *)
Definition orders {X} (D : X -> Prop) (cmp : X -> X -> outcome Z) : Prop :=
  (forall x y, D x -> D y -> exists z, cmp x y = Ret z) /\
  (forall x y a b, D x -> D y -> cmp x y = Ret a -> cmp y x = Ret b -> Z.sgn b = (- Z.sgn a)%Z) /\
  (forall x y z a b c, D x -> D y -> D z -> cmp x y = Ret a -> cmp y z = Ret b -> cmp x z = Ret c -> (a <= 0)%Z -> (b <= 0)%Z -> (c <= 0)%Z).

(** All data of a kind have the same comparison function, or none; if there is one,
    it is in the library of that name and orders them. *)
Definition answer (o : option Z) : outcome Z := match o with Some z => Ret z | None => Abort end.
Definition fair (libraries : text -> option plugin) (D : N * c_data -> Prop) : Prop :=
  forall x y, D x -> D y -> same_kind (snd x) (snd y) -> compareName (snd x) = compareName (snd y) /\
    (compareName (snd x) <> [] -> exists functions f, libraries (pluginName (snd x)) = Some (Binary functions) /\ functions (compareName (snd x)) = Some f /\
       orders (fun z => D z /\ same_kind (snd x) (snd z)) (fun p q => answer (f p q))).
