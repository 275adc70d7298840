(* Model of internal/bytemaper/bytemaper.go, the program that writes the lookup tables: the
   functions behind the tables of strjson, and the loop that fills a table. *)
From Verif Require Import Bytes.

(* bytemaper.go:189-192: mask[i] = tr(byte(i)) for i = 0..255 *)
Definition mask (tr : byte -> byte) : list byte := map tr all_bytes.

(* bytemaper.go:177-186: the default case, 1 for the bytes of the argument *)
Definition isOneOf (arg : bytes) (c : byte) : byte := if existsb (beqb c) arg then x01 else x00.

(* bytemaper.go:66-90.  unicode.IsControl on a byte below 128: below 32, or 127. *)
Definition genToJSON (c : byte) : byte :=
  if (bN c <? 128)%N then
    if beqb c x3c || beqb c x3e || beqb c x26 then x01
    else if beqb c x5c || beqb c x2f || beqb c x22 then x5c
    else if beqb c x0d then x72
    else if beqb c x0a then x6e
    else if beqb c x09 then x74
    else if beqb c x0c then x66
    else if beqb c x08 then x62
    else if (bN c <? 32)%N || (bN c =? 127)%N then x00
    else x80
  else xff.

(* bytemaper.go:91-100 *)
Definition genToHex (c : byte) : byte :=
  if (bN c <=? 9)%N then Nb (bN c + 48)
  else if (bN c <=? 15)%N then Nb (bN c + 97 - 10)
  else xff.

(* bytemaper.go:102-113 *)
Definition genFromHex (c : byte) : byte :=
  if (48 <=? bN c)%N && (bN c <=? 57)%N then Nb (bN c - 48)
  else if (97 <=? bN c)%N && (bN c <=? 122)%N then Nb (10 + bN c - 97)
  else if (65 <=? bN c)%N && (bN c <=? 90)%N then Nb (10 + bN c - 65)
  else xff.
