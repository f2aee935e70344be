-Q theories Verif

theories/Prelude.v
theories/Flatten_Model.v
theories/Flatten_Spec.v
theories/Flatten_Proofs.v
theories/Flatten_Proofs2.v
theories/Flatten_Props.v
theories/AttrRef_Model.v
theories/AttrRef_Spec.v
theories/AttrRef_Proofs.v
theories/AttrRef_Props.v
theories/DecStr.v
theories/Chars.v
theories/Pages_Model.v
theories/Pages_Spec.v
theories/Pages_Proofs.v
theories/Pages_Props.v
theories/Badges_Model.v
theories/Badges_Spec.v
theories/Badges_Proofs.v
theories/Badges_Proofs2.v
theories/Badges_Props.v
theories/Labels_Model.v
theories/Labels_Spec.v
theories/Labels_Proofs.v
theories/Labels_Props.v
theories/Threads_Model.v
theories/Threads_Spec.v
theories/Threads_Proofs.v
theories/Threads_Props.v
theories/Merge_Model.v
theories/Merge_Spec.v
theories/Merge_Proofs.v
theories/Merge_Proofs2.v
theories/Merge_Proofs3.v
theories/Merge_Props.v
theories/Assemble_Model.v
theories/Assemble_Spec.v
theories/Assemble_Proofs.v
theories/Assemble_Props.v
theories/Scope_Model.v
theories/Scope_Spec.v
theories/Scope_Proofs.v
theories/Scope_Proofs2.v
theories/Scope_Props.v
theories/Imports_Model.v
theories/Imports_Spec.v
theories/Imports_Proofs.v
theories/Imports_Props.v
theories/Event_Model.v
theories/Event_Spec.v
theories/Event_Proofs.v
theories/Event_Props.v
theories/Dma_Model.v
theories/Dma_Spec.v
theories/Dma_Proofs.v
theories/Dma_Proofs2.v
theories/Dma_Proofs3.v
theories/Dma_Proofs4.v
theories/Dma_Proofs5.v
theories/Dma_Props.v
theories/Marshal_Model.v
theories/Marshal_Spec.v
theories/Marshal_Proofs.v
theories/Marshal_Proofs2.v
theories/Marshal_Proofs3.v
theories/Marshal_Props.v
theories/Freeze_Model.v
theories/Freeze_Spec.v
theories/Freeze_Proofs.v
theories/Freeze_Proofs2.v
theories/Freeze_Proofs3.v
theories/Freeze_Props.v
theories/AstObj_Model.v
theories/AstObj_Spec.v
theories/AstObj_Proofs.v
theories/AstObj_Proofs2.v
theories/AstObj_Proofs3.v
theories/AstObj_Proofs4.v
theories/AstObj_Props.v
theories/Location_Model.v
theories/Location_Spec.v
theories/Location_Proofs.v
theories/Location_Props.v
theories/Fdt_Model.v
theories/Fdt_Spec.v
theories/Fdt_Proofs.v
theories/Fdt_Proofs2.v
theories/Fdt_Props.v
theories/DtQuery_Model.v
theories/DtQuery_Spec.v
theories/DtQuery_Proofs.v
theories/DtQuery_Proofs2.v
theories/DtQuery_Props.v
theories/Context_Model.v
theories/Context_Spec.v
theories/Context_Proofs.v
theories/Context_Proofs2.v
theories/Context_Proofs3.v
theories/Context_Proofs4.v
theories/Context_Props.v
theories/Runner_Model.v
theories/Runner_Spec.v
theories/Runner_Proofs.v
theories/Runner_Props.v
theories/CapAlloc_Model.v
theories/CapAlloc_Spec.v
theories/CapAlloc_Proofs.v
theories/CapAlloc_Props.v
theories/VqAlloc_Model.v
theories/VqAlloc_Spec.v
theories/VqAlloc_Proofs.v
theories/VqAlloc_Props.v
theories/Registry_Model.v
theories/Registry_Spec.v
theories/Registry_Proofs.v
theories/Registry_Props.v
theories/Irq_Model.v
theories/Irq_Spec.v
theories/Irq_Proofs.v
theories/Irq_Props.v
theories/Reply_Model.v
theories/Reply_Spec.v
theories/Reply_Proofs.v
theories/Reply_Props.v
theories/Numeric_Model.v
theories/Numeric_Spec.v
theories/Numeric_Proofs.v
theories/Numeric_Props.v
theories/Isabelle_Model.v
theories/Isabelle_Spec.v
theories/Isabelle_Proofs.v
theories/Isabelle_Props.v
theories/Dtb_Model.v
theories/Dtb_Spec.v
theories/Dtb_Proofs.v
theories/Dtb_Props.v
theories/Startup_Model.v
theories/Startup_Spec.v
theories/Startup_Proofs.v
theories/Startup_Proofs2.v
theories/Startup_Proofs3.v
theories/Startup_Proofs4.v
theories/Startup_Proofs5.v
theories/Startup_Props.v
theories/Dataport_Model.v
theories/Dataport_Spec.v
theories/Dataport_Proofs.v
theories/Dataport_Props.v
theories/Lift_Model.v
theories/Lift_Spec.v
theories/Lift_Proofs.v
theories/Lift_Proofs2.v
theories/Lift_Proofs3.v
theories/Lift_Proofs4.v
theories/Lift_Proofs5.v
theories/Lift_Props.v
theories/Gdb_Model.v
theories/Gdb_Spec.v
theories/Gdb_Proofs.v
theories/Gdb_Proofs2.v
theories/Gdb_Proofs3.v
theories/Gdb_Proofs4.v
theories/Gdb_Proofs5.v
theories/Gdb_Proofs6.v
theories/Gdb_Proofs7.v
theories/Gdb_Props.v
theories/GdbStop_Model.v
theories/GdbStop_Spec.v
theories/GdbStop_Proofs.v
theories/GdbStop_Props.v
theories/Io_Model.v
theories/Io_Spec.v
theories/Io_Proofs.v
theories/Io_Proofs2.v
theories/Io_Props.v
theories/Vq_Model.v
theories/Vq_Spec.v
theories/Vq_Proofs.v
theories/Vq_Proofs2.v
theories/Vq_Props.v
theories/Posix_Model.v
theories/Posix_Spec.v
theories/Posix_Proofs.v
theories/Posix_Props.v
theories/FaultMap_Model.v
theories/FaultMap_Spec.v
theories/FaultMap_Proofs.v
theories/FaultMap_Props.v
theories/Chan_Model.v
theories/Chan_Spec.v
theories/Chan_Proofs.v
theories/Chan_Props.v
theories/Layout_Model.v
theories/Layout_Spec.v
theories/Layout_Proofs.v
theories/Layout_Props.v
theories/Sched_Model.v
theories/Sched_Spec.v
theories/Sched_Proofs.v
theories/Sched_Props.v
theories/AttrC_Model.v
theories/AttrC_Spec.v
theories/AttrC_Proofs.v
theories/AttrC_Proofs2.v
theories/AttrC_Props.v
theories/ErrMsg_Model.v
theories/ErrMsg_Spec.v
theories/ErrMsg_Proofs.v
theories/ErrMsg_Props.v
theories/MkDeps_Model.v
theories/MkDeps_Spec.v
theories/MkDeps_Proofs.v
theories/MkDeps_Props.v
theories/Lint_Model.v
theories/Lint_Spec.v
theories/Lint_Proofs.v
theories/Lint_Props.v
theories/Whole_Model.v
theories/Whole_Spec.v
theories/Whole_Proofs.v
theories/Whole_Proofs2.v
theories/Whole_Proofs3.v
theories/Whole_Proofs4.v
theories/Whole_Proofs5.v
theories/Whole_Proofs6.v
theories/Whole_Proofs7.v
theories/Whole_Proofs8.v
theories/Whole_Props.v
theories/Emit_Model.v
theories/Emit_Spec.v
theories/Emit_Proofs.v
theories/Emit_Props.v
theories/Ioapic_Model.v
theories/Ioapic_Spec.v
theories/Ioapic_Proofs.v
theories/Ioapic_Props.v
theories/IrqConf_Model.v
theories/IrqConf_Spec.v
theories/IrqConf_Proofs.v
theories/IrqConf_Props.v
theories/Mutex_Model.v
theories/Mutex_Spec.v
theories/Mutex_Proofs.v
theories/Mutex_Props.v
theories/Simple_Model.v
theories/Simple_Spec.v
theories/Simple_Proofs.v
theories/Simple_Proofs2.v
theories/Simple_Props.v
theories/Forward_Model.v
theories/Forward_Spec.v
theories/Forward_Proofs.v
theories/Forward_Proofs2.v
theories/Forward_Proofs3.v
theories/Forward_Proofs4.v
theories/Forward_Props.v
theories/IoPort_Model.v
theories/IoPort_Spec.v
theories/IoPort_Proofs.v
theories/IoPort_Props.v
theories/Socket_Model.v
theories/Socket_Spec.v
theories/Socket_Proofs.v
theories/Socket_Props.v
theories/Traverse_Model.v
theories/Traverse_Spec.v
theories/Traverse_Proofs.v
theories/Traverse_Proofs2.v
theories/Traverse_Props.v
theories/CakeFfi_Model.v
theories/CakeFfi_Spec.v
theories/CakeFfi_Proofs.v
theories/CakeFfi_Proofs2.v
theories/CakeFfi_Props.v
theories/Syntax_Model.v
theories/Syntax_Spec.v
theories/Syntax_Proofs.v
theories/Syntax_Proofs2.v
theories/Syntax_Proofs3.v
theories/Syntax_Proofs4.v
theories/Syntax_Props.v
theories/Ident_Model.v
theories/Ident_Spec.v
theories/Ident_Proofs.v
theories/Ident_Proofs2.v
theories/Ident_Proofs3.v
theories/Ident_Props.v
theories/Sys_Model.v
theories/Sys_Spec.v
theories/Sys_Proofs.v
theories/Sys_Proofs2.v
theories/Sys_Props.v
theories/Grant_Model.v
theories/Grant_Spec.v
theories/Grant_Proofs.v
theories/Grant_Proofs2.v
theories/Grant_Proofs3.v
theories/Grant_Proofs4.v
theories/Grant_Proofs5.v
theories/Grant_Proofs6.v
theories/Grant_Props.v
theories/Refine_Model.v
theories/Refine_Spec.v
theories/Refine_Proofs.v
theories/Refine_Proofs2.v
theories/Refine_Props.v
theories/Arch_Model.v
theories/Arch_Spec.v
theories/Arch_Proofs.v
theories/Arch_Proofs2.v
theories/Arch_Proofs3.v
theories/Arch_Proofs4.v
theories/Arch_Props.v
theories/Build_Model.v
theories/Build_Spec.v
theories/Build_Proofs.v
theories/Build_Proofs2.v
theories/Build_Proofs3.v
theories/Build_Proofs4.v
theories/Build_Props.v
theories/RpcMem_Model.v
theories/RpcMem_Spec.v
theories/RpcMem_Proofs.v
theories/RpcMem_Proofs2.v
theories/RpcMem_Proofs3.v
theories/RpcMem_Proofs4.v
theories/RpcMem_Props.v
theories/Sig_Model.v
theories/Sig_Spec.v
theories/Sig_Proofs.v
theories/Sig_Proofs2.v
theories/Sig_Proofs3.v
theories/Sig_Props.v
theories/ErrH_Model.v
theories/ErrH_Spec.v
theories/ErrH_Proofs.v
theories/ErrH_Proofs2.v
theories/ErrH_Proofs3.v
theories/ErrH_Props.v
theories/Cake_Model.v
theories/Cake_Spec.v
theories/Cake_Proofs.v
theories/Cake_Proofs2.v
theories/Cake_Proofs3.v
theories/Cake_Props.v
theories/Uart_Model.v
theories/Uart_Spec.v
theories/Uart_Proofs.v
theories/Uart_Props.v
theories/Gpio_Model.v
theories/Gpio_Spec.v
theories/Gpio_Proofs.v
theories/Gpio_Props.v
theories/GdbMem_Model.v
theories/GdbMem_Spec.v
theories/GdbMem_Proofs.v
theories/GdbMem_Props.v
