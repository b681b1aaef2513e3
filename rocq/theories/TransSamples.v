(** Instances and helpers for the examples and counterexamples of the
    transformer: an arithmetic on decimals with three places. *)
From Verif Require Import Bytes Utf8 Source Lexer Ast Parser Printer Transformer Samples.
Open Scope Z_scope.

(** Numbers in thousandths. *)
Definition digitOf (z : Z) : byte := match Byte.of_N (Z.to_N (z + 48)) with Some b => b | None => "0"%byte end.
Fixpoint digits (fuel : nat) (z : Z) : bytes :=
  match fuel with
  | O => []
  | S f => (if z <? 10 then [] else digits f (z / 10)) ++ [digitOf (z mod 10)]
  end.
Definition fraction (z : Z) : bytes :=
  if z =? 0 then []
  else "."%byte :: digitOf (z / 100) ::
       (if z mod 100 =? 0 then [] else digitOf (z / 10 mod 10) :: if z mod 10 =? 0 then [] else [digitOf (z mod 10)]).
Definition milliFormat (z : Z) : bytes :=
  (if z <? 0 then B "-" else []) ++ digits 30 (Z.abs z / 1000) ++ fraction (Z.abs z mod 1000).
Definition digitVal (b : byte) : option Z :=
  let z := bz b - 48 in if (0 <=? z) && (z <=? 9) then Some z else None.
(** [scale] is the weight of the next digit after the point, 0 before it. *)
Fixpoint readNum (s : bytes) (acc scale : Z) : option Z :=
  match s with
  | [] => Some acc
  | b :: r =>
    if beq [b] (B ".") then (if scale =? 0 then readNum r acc 100 else None)
    else match digitVal b with
         | None => None
         | Some d => if scale =? 0 then readNum r (acc * 10 + d * 1000) 0 else readNum r (acc + d * scale) (scale / 10)
         end
  end.
Definition milliParse (s : bytes) : option Z :=
  match s with
  | [] => None
  | "-"%byte :: r => option_map Z.opp (readNum r 0 0)
  | "+"%byte :: r => readNum r 0 0
  | _ => readNum s 0 0
  end.
Definition milli : FloatOps := Build_FloatOps Z milliParse milliFormat Z.add Z.sub
  (fun a b => a * b / 1000) (fun a b => a * 1000 / b) (Z.eqb 0) 1 Z.opp.

(** An arithmetic that keeps the laws of the theorems for every number: a sign
    and as many 1s as the number says. *)
Definition unaryFormat (z : Z) : bytes := (if z <? 0 then B "-" else B "+") ++ repeat "1"%byte (Z.to_nat (Z.abs z)).
Definition unaryParse (s : bytes) : option Z :=
  match s with
  | "-"%byte :: r => Some (- Z.of_nat (length r))
  | "+"%byte :: r => Some (Z.of_nat (length r))
  | r => Some (Z.of_nat (length r))
  end.
Definition unary : FloatOps := Build_FloatOps Z unaryParse unaryFormat Z.add Z.sub Z.mul Z.div (Z.eqb 0) 1 Z.opp.
Lemma unary_roundTrip : forall f : Z, unaryParse (unaryFormat f) = Some f.
Proof.
  intros f. unfold unaryFormat. destruct (f <? 0) eqn:E; cbn [B app unaryParse list_byte_of_string]; simpl; rewrite repeat_length; f_equal;
    [apply Z.ltb_lt in E|apply Z.ltb_ge in E]; lia.
Qed.

Definition noOpts : topts := mkOpts ImportPassthrough false false false false false.
Definition allOpts : topts := mkOpts ImportPassthrough true true true true true.
(** The nodes of a content that parses. *)
Definition sheetOf (content : bytes) : list node :=
  match @parse asciiOnly 0 100 content with ParseOk ss _ => ss_nodes ss | _ => [] end.
Definition parses (content : bytes) : Prop := exists ss lines, @parse asciiOnly 0 100 content = ParseOk ss lines.
(** What a content becomes: parse, transform, print. *)
Definition css {FO : FloatOps} (o : topts) (content : bytes) : option bytes :=
  match @parse asciiOnly 0 100 content with
  | ParseOk ss _ => match transform o None 100 ss with TOk ss' _ => print None (ss_nodes ss') | _ => None end
  | _ => None
  end.
