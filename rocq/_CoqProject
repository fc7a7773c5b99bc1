-Q theories Verif
theories/AksModel.v
theories/AksProofs.v
theories/AksProofs2.v
theories/AksProofs3.v
theories/AksProofs4.v
theories/AksProofs5.v
theories/AksProps.v
theories/BoundModel.v
theories/BoundProofs.v
theories/BoundProofs2.v
theories/BoundProps.v
theories/BzModel.v
theories/BzModel2.v
theories/BzProofs1.v
theories/BzProofs10.v
theories/BzProofs11.v
theories/BzProofs12.v
theories/BzProofs13.v
theories/BzProofs14.v
theories/BzProofs2.v
theories/BzProofs3.v
theories/BzProofs4.v
theories/BzProofs5.v
theories/BzProofs6.v
theories/BzProofs7.v
theories/BzProofs8.v
theories/BzProofs9.v
theories/BzProps.v
theories/BzProps2.v
theories/BzProps3.v
theories/BzSpec.v
theories/CharModel.v
theories/CharProofs.v
theories/CharProofs2.v
theories/CharProps.v
theories/FacModel.v
theories/FacModel2.v
theories/FacProofs.v
theories/FacProofs2.v
theories/FacProofs3.v
theories/FacProofs4.v
theories/FacProofs5.v
theories/FacProofs6.v
theories/FacProps.v
theories/FactoredModel.v
theories/FactoredProofs.v
theories/FactoredProps.v
theories/FactoredSpec.v
theories/FfModel.v
theories/FfProofs.v
theories/FfProofs10.v
theories/FfProofs11.v
theories/FfProofs2.v
theories/FfProofs3.v
theories/FfProofs4.v
theories/FfProofs5.v
theories/FfProofs6.v
theories/FfProofs7.v
theories/FfProofs8.v
theories/FfProofs9.v
theories/FfProps.v
theories/FfProps2.v
theories/FfProps3.v
theories/FfSpec.v
theories/FinSupp.v
theories/FofModel.v
theories/FofProofs.v
theories/FofProofs2.v
theories/FofProps.v
theories/GramModel.v
theories/GramProofs.v
theories/GramProps.v
theories/GroupModel.v
theories/GroupProofs.v
theories/GroupProofs2.v
theories/GroupProps.v
theories/GroupSpec.v
theories/HenselModel.v
theories/HenselProofs.v
theories/HenselProofs2.v
theories/HenselProofs3.v
theories/HenselProofs4.v
theories/HenselProofs5.v
theories/HenselProps.v
theories/HenselSpec.v
theories/HomModel.v
theories/HomProofs.v
theories/HomProofs2.v
theories/IsoModel.v
theories/IsoProofs.v
theories/IsoProofs2.v
theories/IsoProofs3.v
theories/IsoProofs4.v
theories/IsoProofs5.v
theories/IsoProofs6.v
theories/IsoProps.v
theories/IsoProps2.v
theories/LatLoops.v
theories/LatModel.v
theories/LatProofs.v
theories/LatProofs2.v
theories/LatProofs3.v
theories/LatProofs4.v
theories/LatProofs5.v
theories/LatProofs6.v
theories/LatProofs7.v
theories/LatProps.v
theories/LatProps2.v
theories/LatSpec.v
theories/MatInst.v
theories/MatModel.v
theories/MatProofs.v
theories/MatProofs2.v
theories/MatProofs3.v
theories/MatProofs4.v
theories/MatProofs5.v
theories/MatProofs6.v
theories/MatProofs7.v
theories/MatProofs8.v
theories/MatProofs9.v
theories/MatProps.v
theories/MatSpec.v
theories/MatViewSpec.v
theories/McRing.v
theories/MpModel.v
theories/MpProofs.v
theories/MpProofs2.v
theories/MpProofs3.v
theories/MpProps.v
theories/MpProps2.v
theories/MpProps3.v
theories/MpRing.v
theories/MpRing2.v
theories/MpRing3.v
theories/MpRing4.v
theories/MpSpec.v
theories/NatBridge.v
theories/NatBridge2.v
theories/NatModel.v
theories/NatProofs.v
theories/NatProofs2.v
theories/NatProofs3.v
theories/NatProofs4.v
theories/NatProofs5.v
theories/NatProofs6.v
theories/NatProofs7.v
theories/NatProps.v
theories/NatSpec.v
theories/PermModel.v
theories/PermProofs.v
theories/PermProofs2.v
theories/PermProps.v
theories/PermSpec.v
theories/PolyHom.v
theories/PolyModel.v
theories/PolyModel2.v
theories/PolyProofs.v
theories/PolyProofs10.v
theories/PolyProofs11.v
theories/PolyProofs12.v
theories/PolyProofs2.v
theories/PolyProofs3.v
theories/PolyProofs4.v
theories/PolyProofs5.v
theories/PolyProofs6.v
theories/PolyProofs7.v
theories/PolyProofs8.v
theories/PolyProofs9.v
theories/PolyProps.v
theories/PolyProps2.v
theories/PolyProps3.v
theories/PolySpec.v
theories/QpModel.v
theories/QpProofs.v
theories/QpProofs2.v
theories/QpProps.v
theories/QuotRing.v
theories/RatModel.v
theories/RatProofs.v
theories/RatProofs2.v
theories/RatProps.v
theories/RatSpec.v
theories/RingModel.v
theories/RingProofs.v
theories/RingProofs2.v
theories/RingProps.v
theories/RingSpec.v
theories/SetsModel.v
theories/SetsProofs1.v
theories/SetsProofs2.v
theories/SetsProps.v
theories/SetsSpec.v
theories/SmithProps.v
theories/SymModel.v
theories/SymProofs.v
theories/SymProofs2.v
theories/SymProofs3.v
theories/SymProofs4.v
theories/SymProofs5.v
theories/SymProps.v
theories/SymRing.v
theories/TCDiverge.v
theories/TCModel.v
theories/TCProofs.v
theories/TCProofs2.v
theories/TCProofs3.v
theories/TCProps.v
theories/TCSpec.v
theories/TCWords.v
theories/TableModel.v
theories/TableProofs.v
theories/TableProofs2.v
theories/TableProofs3.v
theories/TableProofs4.v
theories/TableProofs5.v
theories/TableProps.v
theories/TableSpec.v
theories/ZRing.v
