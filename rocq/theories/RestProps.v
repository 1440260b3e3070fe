(** What the refutations and examples that are not printed in their own files rest on (DESIGN.md, trusted base). *)
From Verif Require CodecProps RequestProps BufferProps GraceProps.

Print Assumptions CodecProps.C18_ber_array_refuted.
Print Assumptions CodecProps.C18_dropped_field_refuted.
Print Assumptions CodecProps.C18_float64_slice_refuted.
Print Assumptions CodecProps.C18_nil_pointer_refuted.
Print Assumptions CodecProps.C19_float64_slice_refuted.
Print Assumptions CodecProps.C19_i64_prefix_refuted.
Print Assumptions CodecProps.C20_ber_128_refuted.
Print Assumptions CodecProps.C20_struct_with_string_refuted.
Print Assumptions CodecProps.C20_cnt_i8_refuted.
Print Assumptions CodecProps.C25_float64_refuted.
Print Assumptions CodecProps.C25_tail_field_refuted.
Print Assumptions RequestProps.C34_causes_distinguishable_refuted.
Print Assumptions BufferProps.C49_double_stop_refuted.
Print Assumptions GraceProps.C145_example.
