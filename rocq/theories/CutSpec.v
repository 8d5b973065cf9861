(** * CutSpec: SPECIFICATION of a document that was cut short

    [CutShort b' b]: [b'] is a beginning of [b], or would be one if its last element, an attribute with a number, had not
    lost the end of that number.  Nothing here refers to the parser. *)
From Verif Require Import Base Ast.

Definition number_text (n : number_t) : str := cow_str (num_input n).
(** [n] is [n'] without some of its last characters *)
Definition CutNumber (n n' : number_t) : Prop := exists u, u <> [] /\ number_text n' = number_text n ++ u.

Inductive CutShort : body_t -> body_t -> Prop :=
| CS_elements b1 b2 : CutShort b1 (b1 ++ b2)
| CS_number b1 i n n' b2 : CutNumber n n' -> CutShort (b1 ++ [Attr i (ENumber n)]) (b1 ++ Attr i (ENumber n') :: b2).
