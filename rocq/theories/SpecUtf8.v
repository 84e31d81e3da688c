(** * SpecUtf8: the bytes of a text, as RFC 3629 defines them. *)
From Verif Require Export Base.

Definition utf8 (c : char) : list N :=
  (if c <? 128 then [c]
   else if c <? 2048 then [192 + c / 64; 128 + c mod 64]
   else if c <? 65536 then [224 + c / 4096; 128 + c / 64 mod 64; 128 + c mod 64]
   else [240 + c / 262144; 128 + c / 4096 mod 64; 128 + c / 64 mod 64; 128 + c mod 64])%N.
Definition utf8_bytes (s : rstr) : list N := flat_map utf8 s.

(** "é€" *)
Example utf8_ex : utf8_bytes [233; 8364]%N = [195; 169; 226; 130; 172]%N.
Proof. reflexivity. Qed.
