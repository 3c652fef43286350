-Q theories Verif

theories/Base.v
theories/M_Marin.v
theories/S_Marin.v
theories/L_Marin.v
theories/P_Marin.v
theories/M_Laws.v
theories/S_Laws.v
theories/L_Laws.v
theories/L_LawsB.v
theories/L_LawsC.v
theories/P_Laws.v
theories/M_Laws2.v
theories/S_Laws2.v
theories/L_Laws2.v
theories/L_Laws3.v
theories/L_Laws4.v
theories/L_Laws5.v
theories/P_Laws2.v
theories/M_Registry.v
theories/S_Registry.v
theories/L_Registry.v
theories/P_Registry.v
theories/M_Reinf.v
theories/S_Reinf.v
theories/L_Reinf.v
theories/P_Reinf.v
theories/M_Fiber.v
theories/S_Fiber.v
theories/L_Fiber.v
theories/P_Fiber.v
theories/M_MarinInt.v
theories/S_MarinInt.v
theories/L_MarinInt.v
theories/L_MarinInt2.v
theories/L_MarinInt3.v
theories/L_MarinInt4.v
theories/P_MarinInt.v
theories/M_Section.v
theories/S_Section.v
theories/L_Section.v
theories/L_Section2.v
theories/L_Section3.v
theories/M_Domain.v
theories/S_History.v
theories/L_History.v
theories/L_Section4.v
theories/L_Section5.v
theories/L_Section6.v
theories/P_Section.v
theories/S_Domain.v
theories/L_Domain.v
theories/L_Domain3.v
theories/L_Domain2.v
theories/P_Domain.v
theories/M_Gross.v
theories/S_Gross.v
theories/L_Gross.v
theories/L_Gross2.v
theories/P_Gross.v
theories/M_Geo.v
theories/S_Geo.v
theories/L_Geo.v
theories/P_Geo.v
theories/M_Bars.v
theories/S_Bars.v
theories/L_Bars.v
theories/P_Bars.v
theories/M_Profile.v
theories/S_Profile.v
theories/L_Profile.v
theories/P_Profile.v
theories/M_Calc.v
theories/S_Calc.v
theories/L_Calc.v
theories/M_Conc.v
theories/S_Conc.v
theories/L_Conc.v
theories/P_Conc.v
theories/M_Creep.v
theories/S_Creep.v
theories/L_Creep.v
theories/P_Time.v
theories/P_Creep.v
theories/P_Creep2.v
theories/P_Creep3.v
theories/M_Shear.v
theories/S_Shear.v
theories/L_Shear.v
theories/P_Shear.v
theories/M_Crack.v
theories/S_Crack.v
theories/L_Crack.v
theories/P_Crack.v
theories/M_ShearMC.v
theories/S_ShearMC.v
theories/L_ShearMC.v
theories/P_ShearMC.v
theories/M_Punch.v
theories/L_Punch.v
theories/P_Punch.v
theories/M_Sls.v
theories/S_Sls.v
theories/L_Sls.v
theories/P_Sls.v
theories/M_Concrete.v
theories/S_Concrete.v
theories/L_Concrete.v
theories/P_Concrete.v
theories/M_Discr.v
theories/S_Discr.v
theories/L_Discr.v
theories/L_Discr2.v
theories/P_Discr.v
theories/S_Strength.v
theories/L_Strength.v
theories/P_Strength.v
theories/M_Cracked.v
theories/S_Cracked.v
theories/L_Cracked.v
theories/L_Cracked2.v
theories/L_Cracked3.v
theories/L_Cracked4.v
theories/L_Cracked5.v
theories/L_Cracked6.v
theories/L_Cracked7.v
theories/L_Cracked8.v
theories/P_Cracked.v
theories/M_Derive.v
theories/S_Derive.v
theories/L_Derive.v
theories/P_Derive.v
theories/M_ProfileTable.v
theories/M_Catalog.v
theories/S_Catalog.v
theories/L_Catalog.v
theories/L_Catalog2.v
theories/P_Catalog.v
theories/M_Outline.v
theories/S_Outline.v
theories/L_Outline.v
theories/L_Outline2.v
theories/L_Outline3.v
theories/L_Outline4.v
theories/L_Outline5.v
theories/L_Outline6.v
theories/L_Outline7.v
theories/L_Outline8.v
theories/L_Outline9.v
theories/L_Outline10.v
theories/L_Outline11.v
theories/P_Outline.v
theories/S_Exact.v
theories/L_Exact.v
theories/L_Exact2.v
theories/L_Exact3.v
theories/P_Exact.v
theories/L_Newton.v
theories/P_Newton.v
theories/P_Exact2.v
theories/L_Frame.v
theories/L_Frame2.v
theories/L_Frame3.v
theories/L_Frame4.v
theories/L_Frame5.v
theories/S_Frame.v
theories/P_Frame.v
theories/P_Frame2.v
theories/S_Mesh.v
theories/L_Mesh.v
theories/L_Mesh2.v
theories/L_Mesh3.v
theories/L_Mesh4.v
theories/P_Mesh.v
theories/P_Mesh2.v
theories/P_Mesh3.v
theories/S_Turn.v
theories/L_Turn.v
theories/L_Turn2.v
theories/L_Turn3.v
theories/L_Turn4.v
theories/P_Turn.v
theories/M_Fields.v
theories/S_Fields.v
theories/L_Fields.v
theories/L_Fields2.v
theories/L_Fields3.v
theories/P_Fields.v
theories/S_Move.v
theories/L_Move.v
theories/L_Move2.v
theories/L_Move3.v
theories/L_Move4.v
theories/L_Move5.v
theories/L_Move6.v
theories/L_Move7.v
theories/P_Move.v
theories/S_Pieces.v
theories/L_Pieces.v
theories/L_Pieces2.v
theories/L_Pieces3.v
theories/L_Pieces4.v
theories/P_Pieces.v
theories/S_Curved.v
theories/L_Curved.v
theories/L_Curved2.v
theories/P_Curved.v
theories/P_Curved2.v
theories/P_Curved3.v
theories/P_Curved4.v
theories/S_Order.v
theories/L_Order.v
theories/L_Order2.v
theories/L_Order3.v
theories/L_Order4.v
theories/P_Order.v
theories/S_Scale.v
theories/L_Scale.v
theories/P_Scale.v
theories/M_Prestress.v
theories/S_Prestress.v
theories/P_Prestress.v
theories/S_Unique.v
theories/L_Refine.v
theories/L_Unique.v
theories/P_Unique.v
theories/L_Unique2.v
theories/P_Unique2.v
theories/P_Unique3.v
theories/S_Odd.v
theories/L_Odd.v
theories/L_Odd2.v
theories/P_Odd.v
theories/M_Report.v
theories/S_Report.v
theories/P_Report.v
theories/M_Life.v
theories/P_Life.v
theories/P_Cases.v
theories/P_Centre.v
