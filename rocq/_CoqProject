-Q theories Verif
theories/Base.v
theories/M_Graph.v
theories/S_Graph.v
theories/P_Graph.v
theories/Properties_Graph.v
theories/M_DFS.v
theories/S_Reach.v
theories/P_DFS.v
theories/M_Range.v
theories/M_Netlist.v
theories/M_Path.v
theories/S_Netlist.v
theories/P_Path.v
theories/S_Cycle.v
theories/M_Cycle.v
theories/P_Cycle.v
theories/Properties_Path.v
theories/M_Query.v
theories/S_Query.v
theories/P_Query.v
theories/Properties_Query.v
theories/M_Text.v
theories/S_Text.v
theories/P_Text.v
theories/Properties_Text.v
theories/M_Conc.v
theories/S_Conc.v
theories/P_Conc.v
theories/P_Lin.v
theories/Properties_Conc.v
theories/M_Intern.v
theories/S_Intern.v
theories/P_Intern.v
theories/M_Slots.v
theories/P_Slots.v
theories/Properties_Intern.v
theories/M_Annot.v
theories/S_Annot.v
theories/P_Annot.v
theories/Properties_Annot.v
theories/M_Interval.v
theories/S_Interval.v
theories/P_Interval.v
theories/Properties_Interval.v
theories/M_Heap.v
theories/S_Heap.v
theories/P_Heap.v
theories/Properties_Heap.v
theories/M_Drivers.v
theories/S_Drivers.v
theories/P_Drivers.v
theories/P_DriversX.v
theories/Properties_Drivers.v
theories/M_Slice.v
theories/S_Slice.v
theories/P_Slice.v
theories/P_Slice2.v
theories/P_Slice3.v
theories/Properties_Slice.v
theories/M_Serial.v
theories/S_Serial.v
theories/P_Serial.v
theories/P_Serial2.v
theories/P_Serial3.v
theories/Properties_Serial.v
theories/M_Pending.v
theories/S_Pending.v
theories/P_Pending.v
theories/P_Pending2.v
theories/Properties_Pending.v
theories/M_DFA.v
theories/S_DFA.v
theories/P_DFA.v
theories/P_DFA2.v
theories/P_DFA3.v
theories/P_DFA4.v
theories/P_DFA5.v
theories/P_DFA6.v
theories/P_DFA7.v
theories/Properties_DFA.v
theories/M_Builder.v
theories/S_Builder.v
theories/P_Builder.v
theories/Properties_Builder.v
theories/M_Port.v
theories/S_Port.v
theories/P_Port.v
theories/P_Port2.v
theories/P_Port3.v
theories/Properties_Port.v
theories/M_Inst.v
theories/S_Inst.v
theories/P_Inst.v
theories/P_Inst2.v
theories/P_Inst3.v
theories/Properties_Inst.v
theories/M_Canon.v
theories/S_Canon.v
theories/P_Canon.v
theories/Properties_Canon.v
theories/M_Table.v
theories/S_Table.v
theories/P_Table.v
theories/Properties_Table.v
theories/M_Stats.v
theories/S_Stats.v
theories/P_Stats.v
theories/Properties_Stats.v
theories/M_Dot.v
theories/S_Dot.v
theories/P_Dot.v
theories/Properties_Dot.v
theories/M_Report.v
theories/S_Report.v
theories/P_Report.v
theories/Properties_Report.v
theories/M_Cli.v
theories/S_Cli.v
theories/P_Cli.v
theories/P_Cli2.v
theories/Properties_Cli.v
theories/M_Tool.v
theories/S_Tool.v
theories/P_Tool.v
theories/P_Tool2.v
theories/Properties_Tool.v
theories/M_Expr.v
theories/S_Expr.v
theories/P_Expr.v
theories/P_Expr2.v
theories/Properties_Expr.v
theories/M_Flow.v
theories/S_Flow.v
theories/P_Flow.v
theories/P_Flow2.v
theories/P_Flow3.v
theories/P_Flow4.v
theories/P_Flow5.v
theories/P_Flow6.v
theories/P_Flow7.v
theories/P_Flow8.v
theories/Properties_Flow.v
theories/M_Py.v
theories/S_Py.v
theories/P_Py.v
theories/P_Py2.v
theories/P_Py3.v
theories/Properties_Py.v
theories/Properties_Py2.v
theories/S_Prec.v
theories/P_Prec.v
theories/P_Prec2.v
theories/P_Prec3.v
theories/P_Prec4.v
theories/P_Prec5.v
theories/Properties_Prec.v
theories/P_AnnotX.v
theories/Properties_Exact.v
theories/M_Proc.v
theories/S_Proc.v
theories/P_Proc1.v
theories/P_Proc2.v
theories/P_Proc3.v
theories/Properties_Proc.v
theories/S_Seq.v
theories/P_Seq1.v
theories/P_Seq2.v
theories/P_Seq3.v
theories/Properties_Seq.v
theories/S_Load.v
theories/P_Load1.v
theories/P_Load2.v
theories/P_Load3.v
theories/Properties_Load.v
theories/M_Main.v
theories/S_Main.v
theories/P_Main.v
theories/Properties_Main.v
theories/Properties_Sync.v
theories/M_Lhs.v
theories/S_Lhs.v
theories/P_Lhs.v
theories/Properties_Lhs.v
theories/S_Par.v
theories/P_Par.v
theories/Properties_Par.v
theories/S_Settle.v
theories/P_Settle.v
theories/Properties_Settle.v
theories/S_Prec2.v
theories/P_Prec6.v
theories/P_Prec7.v
theories/P_Prec8.v
theories/Properties_Prec2.v
theories/M_Order.v
theories/S_Order.v
theories/P_Order.v
theories/Properties_Order.v
theories/S_Total.v
theories/P_Total.v
theories/Properties_Total.v
theories/S_Clock.v
theories/P_Clock.v
theories/Properties_Clock.v
theories/S_Drv.v
theories/P_Drv.v
theories/Properties_Drv.v
theories/S_Cuts.v
theories/P_Cuts.v
theories/S_Cuts2.v
theories/P_Cuts2.v
theories/Properties_Cuts.v
theories/M_Visit.v
theories/S_Visit.v
theories/P_Visit.v
theories/Properties_Visit.v
theories/Properties_Source.v
theories/S_Bits.v
theories/P_Bits.v
theories/Properties_Bits.v
