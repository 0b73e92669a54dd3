(** What HTTP requests and responses look like. *)
From Verif Require Export HttpModel PreludeSpec DecSpec.
Open Scope nat_scope.

(** A GET request: its line, its header lines, the empty line. *)
Definition get_line (url : list Z) : list Z := bytes "GET " ++ url ++ bytes " HTTP/1.1".
Definition header_block (lines : list (list Z)) : list Z := CRLF ++ concat (map (fun l => l ++ CRLF) lines) ++ CRLF.
(** A URL that can stand in a request line; a header line. *)
Definition url_ok (url : list Z) : Prop := (exists r, url = 47%Z :: r) /\ ~ In SP url /\ ~ In 13%Z url.
Definition header_ok (l : list Z) : Prop := l <> [] /\ ~ In 13%Z l.

(** What one arrival after another leaves in the read buffer, while it stays below 2 GB. *)
Definition small (b : rbuf) (arrived : list Z) : Prop := (Z.of_nat (List.length (rb_data b ++ arrived)) + 4 <= 2 ^ 31)%Z.
Inductive sconn : rbuf -> Prop :=
| sconn_new : sconn {| rb_data := []; rb_hs := 0; rb_he := 0 |}
| sconn_read b arrived b' o : sconn b -> small b arrived -> on_readable b arrived = Some (b', o) -> sconn b'.

(** A response: status line, headers, empty line, content; [junk] is the padding header. *)
Definition response (status lenstr junk headers content : list Z) : list Z :=
  bytes "HTTP/1.1 " ++ status ++ CRLF ++ bytes "Connection: keep-alive" ++ CRLF ++
  bytes "Content-Length: " ++ lenstr ++ CRLF ++ junk ++ bytes ": X" ++ CRLF ++ headers ++ CRLF ++ content.

(** All that was appended. *)
Fixpoint appended (os : list wop) : list Z :=
  match os with [] => [] | Append x :: os => x ++ appended os | Writeable _ :: os => appended os end.
Definition unsent (w : option wbuf) : list Z := match w with None => [] | Some b => skipn (wb_cursor b) (wb_data b) end.
