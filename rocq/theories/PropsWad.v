(** Properties of WAD container parsing: C01-C05, C61. *)

From Coq Require Import String List ZArith.
From Coq Require Import Strings.Byte.
From Verif Require Import Base Nom SpecBytes ParseWad SpecWad WadFacts EncodeFacts Samples PropsWadAux.
Import ListNotations.
Local Open Scope Z_scope.

(** C01. Parsing any bytes returns Ok or Err. *)
Theorem C01_parse_wad_never_panics : forall buf p, parse_wad buf <> Panic p.
Proof. exact (parse_wad_no_panic true). Qed.
Print Assumptions C01_parse_wad_never_panics.

(** C02. The accepted buffers are exactly the well-formed WADs, and the result
    is their decoding. *)
Theorem C02_parse_wad_exact : forall buf w, parse_wad buf = Ok w <-> wad_layout buf w.
Proof. exact (parse_wad_ok_iff true). Qed.
Print Assumptions C02_parse_wad_exact.

Theorem C02_decoding_unique : forall buf w w', wad_layout buf w -> wad_layout buf w' -> w = w'.
Proof. exact wad_layout_unique. Qed.
Print Assumptions C02_decoding_unique.

(** Acceptance in terms of the buffer alone. *)
Theorem C02_parse_wad_accepts : forall buf,
  (exists w, parse_wad buf = Ok w)
  <-> (exists t, has_header buf t) /\ directory_inside buf /\ ~ bad_directory_name buf.
Proof. exact parse_wad_accepts. Qed.
Print Assumptions C02_parse_wad_accepts.

Example C02_example : wad_layout small_buf small_wad.
Proof. apply C02_parse_wad_exact. vm_compute. reflexivity. Qed.

(** C03. Writing a WAD and parsing it. *)
Theorem C03_encode_parse : forall t body dir,
  Forall entry_encodable dir -> 12 + Z.of_nat (length body) < 2 ^ 32 ->
  Z.of_nat (length dir) < 2 ^ 32 ->
  parse_wad (encode_wad t body dir)
  = Ok (mk_wad (encode_wad t body dir)
          (mk_header t (Z.of_nat (length dir)) (12 + Z.of_nat (length body))) dir).
Proof. exact parse_encode_wad. Qed.
Print Assumptions C03_encode_parse.

Example C03_example :
  Forall entry_encodable small_dir
  /\ parse_wad (encode_wad PWAD small_body small_dir) = Ok small_wad.
Proof. exact small_dir_encodable. Qed.

(** C04. The reported failures. *)
Theorem C04_truncated_header : forall buf,
  parse_wad buf = Err (TruncatedData "wad header") <-> header_cut_short buf.
Proof. exact (parse_wad_truncated_header true). Qed.
Print Assumptions C04_truncated_header.

Theorem C04_truncated_index : forall buf,
  parse_wad buf = Err (TruncatedData "wad index")
  <-> (exists t, has_header buf t) /\ ~ directory_inside buf.
Proof. exact (parse_wad_truncated_index true). Qed.
Print Assumptions C04_truncated_index.

Theorem C04_parse_error : forall buf,
  parse_wad buf = Err ParseError
  <-> wrong_magic buf
      \/ ((exists t, has_header buf t) /\ directory_inside buf /\ bad_directory_name buf).
Proof. exact parse_wad_parse_error. Qed.
Print Assumptions C04_parse_error.

Theorem C04_no_other_error : forall buf e, parse_wad buf = Err e ->
  e = TruncatedData "wad header" \/ e = TruncatedData "wad index" \/ e = ParseError.
Proof. exact parse_wad_error_kinds. Qed.
Print Assumptions C04_no_other_error.

Example C04_example :
  parse_wad (firstn 7 small_buf) = Err (TruncatedData "wad header")
  /\ parse_wad cut_dir_buf = Err (TruncatedData "wad index")
  /\ parse_wad bad_name_buf = Err ParseError.
Proof. vm_compute. auto. Qed.

(** C05 (directory part). Names handed out are short and printable. *)
Theorem C05_directory_names : forall buf w e,
  parse_wad buf = Ok w -> In e (directory w) -> short_name (name e).
Proof. exact parse_wad_names_short. Qed.
Print Assumptions C05_directory_names.

Example C05_directory_example : In (mk_entry 12 3 (bs "A")) (directory small_wad)
  /\ parse_wad small_buf = Ok small_wad.
Proof. vm_compute. auto. Qed.

(** C61. The intended error for a wrong magic is never produced with the
    configured nom; it would be with nom's simple errors. *)
Theorem C61_wrong_magic_reported_refuted :
  exists buf, wrong_magic buf /\ parse_wad buf <> Err InvalidMagic.
Proof. exact wrong_magic_refuted. Qed.
Print Assumptions C61_wrong_magic_reported_refuted.

Theorem C61_never_invalid_magic : forall buf, parse_wad buf <> Err InvalidMagic.
Proof. exact never_invalid_magic. Qed.
Print Assumptions C61_never_invalid_magic.

Theorem C61_simple_errors_would_report : forall buf,
  parse_wad_with false buf = Err InvalidMagic <-> wrong_magic buf.
Proof. exact parse_wad_magic_simple. Qed.
Print Assumptions C61_simple_errors_would_report.

Example C61_example : parse_wad (bs "XWAD12345678") = Err ParseError
  /\ parse_wad_with false (bs "XWAD12345678") = Err InvalidMagic.
Proof. vm_compute. auto. Qed.
