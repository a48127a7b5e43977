-Q theories Verif
theories/IdModel.v
theories/IdSpec.v
theories/IdProofs.v
theories/IdProps.v
theories/CostAlg.v
theories/GraphModel.v
theories/GraphSpec.v
theories/GraphProofs.v
theories/GraphProofs2.v
theories/GraphProps.v
theories/DijkstraModel.v
theories/RoutingSpec.v
theories/VisitSpec.v
theories/DijkstraProofs.v
theories/RoutingProofs.v
theories/RoutingProps.v
theories/MapModel.v
theories/MapSpec.v
theories/MapProofs.v
theories/MapProofs2.v
theories/MapProofs3.v
theories/MapProps.v
theories/NearestModel.v
theories/NearestProofs.v
theories/NearestGeom.v
theories/NearestProps.v
theories/LineModel.v
theories/LineSpec.v
theories/LineProofs.v
theories/CompoundProofs.v
theories/LineProps.v
theories/HybridModel.v
theories/HybridSpec.v
theories/HybridProofs.v
theories/HybridProps.v
theories/AttrModel.v
theories/AttrProofs.v
theories/AttrProps.v
theories/TrafficModel.v
theories/TrafficSpec.v
theories/TrafficProofs.v
theories/TrafficProps.v
theories/LaneletModel.v
theories/LaneletSpec.v
theories/LaneletProofs.v
theories/LaneletProps.v
theories/CenterlineModel.v
theories/CenterlineProofs.v
theories/CenterlineProps.v
theories/RegElemModel.v
theories/RegElemSpec.v
theories/RegElemProofs.v
theories/RegElemProps.v
theories/OsmModel.v
theories/OsmSpec.v
theories/OsmProofs.v
theories/OsmRelProofs.v
theories/OsmRoundProofs.v
theories/OsmProps.v
theories/BoundaryModel.v
theories/BoundarySpec.v
theories/BoundaryProofs.v
theories/BoundaryProps.v
theories/OsmMapModel.v
theories/OsmMapSpec.v
theories/OsmWriteProofs.v
theories/OsmMapProps.v
theories/OsmTripSpec.v
theories/OsmTripProofs.v
theories/OsmTripProps.v
theories/ProjectionModel.v
theories/ProjectionProps.v
theories/UtmModel.v
theories/UtmProps.v
theories/RouteModel.v
theories/RouteSpec.v
theories/RouteProofs.v
theories/RouteProps.v
theories/DoubleModel.v
theories/DoubleProofs.v
theories/DoubleProps.v
theories/BuilderModel.v
theories/BuilderSpec.v
theories/BuilderProofs.v
theories/BuilderProofs2.v
theories/BuilderProofs3.v
theories/BuilderProofs4.v
theories/BuilderProps.v
theories/ValidityModel.v
theories/ValiditySpec.v
theories/ValidityProofs.v
theories/ValidityProofs2.v
theories/ValidityProofs3.v
theories/ValidityProps.v
theories/RouteBuilderModel.v
theories/RouteBuilderSpec.v
theories/RouteQueryModel.v
theories/RouteBuilderProofs.v
theories/RouteBuilderProofs2.v
theories/RouteBuilderProofs3.v
theories/RouteBuilderProofs4.v
theories/RouteBuilderProofs5.v
theories/RouteBuilderProofs6.v
theories/RouteBuilderProofs7.v
theories/RouteBuilderProofs8.v
theories/RouteBuilderProofs9.v
theories/RouteBuilderProofs10.v
theories/RouteBuilderProofs11.v
theories/RouteBuilderProps.v
theories/ClosestModel.v
theories/ClosestSpec.v
theories/ClosestProofs.v
theories/ClosestVec.v
theories/ClosestLine.v
theories/ClosestTree.v
theories/ClosestProps.v
theories/SideModel.v
theories/SideSpec.v
theories/SideProofs.v
theories/SideProps.v
theories/ArcModel.v
theories/ArcSpec.v
theories/ArcProofs.v
theories/ArcPlane.v
theories/ArcTrip.v
theories/ArcProps.v
theories/PartitionModel.v
theories/PartitionSpec.v
theories/PartitionLists.v
theories/PartitionMerge.v
theories/PartitionProofs.v
theories/PartitionProps.v
theories/ValidationModel.v
theories/ValidationSpec.v
theories/ValidationProofs.v
theories/ValidationProofs2.v
theories/ValidationProps.v
theories/MatchingModel.v
theories/MatchingSpec.v
theories/MatchingProofs.v
theories/MatchingProps.v
theories/TravelModel.v
theories/TravelSpec.v
theories/TravelProps.v
theories/PathModel.v
theories/PathSpec.v
theories/PathProofs.v
theories/PathProofs2.v
theories/PathProps.v
theories/OffsetModel.v
theories/OffsetSpec.v
theories/OffsetWalk.v
theories/OffsetProofs.v
theories/OffsetProofs2.v
theories/OffsetProofs3.v
theories/OffsetProps.v
theories/ArchiveModel.v
theories/ArchiveSpec.v
theories/ArchiveProofs.v
theories/ArchiveRead.v
theories/ArchiveSim.v
theories/ArchiveSim2.v
theories/ArchiveSim3.v
theories/ArchiveProps.v
theories/RelateModel.v
theories/RelateSpec.v
theories/RelateProofs.v
theories/RelateProps.v
theories/ExtentModel.v
theories/ExtentSpec.v
theories/ExtentProofs.v
theories/ExtentMore.v
theories/ExtentProps.v
theories/SubmapModel.v
theories/SubmapSpec.v
theories/SubmapProofs.v
theories/SubmapMore.v
theories/SubmapProps.v
theories/DebugModel.v
theories/DebugSpec.v
theories/DebugProofs.v
theories/DebugProofs2.v
theories/DebugProps.v
theories/IoModel.v
theories/IoSpec.v
theories/IoProofs.v
theories/IoProofs2.v
theories/IoProps.v
theories/AlignModel.v
theories/AlignSpec.v
theories/AlignProofs.v
theories/AlignProps.v
theories/JourneySpec.v
theories/JourneyProofs.v
theories/JourneyProps.v
theories/MemberModel.v
theories/MemberSpec.v
theories/MemberProofs.v
theories/MemberProps.v
theories/NextModel.v
theories/NextSpec.v
theories/NextProofs.v
theories/NextProps.v
theories/ToolModel.v
theories/ToolSpec.v
theories/ToolProofs.v
theories/ToolProps.v
theories/TripSpec.v
theories/TripProofs.v
theories/TripProps.v
theories/PySpec.v
theories/PyModel.v
theories/PyProofs.v
theories/PyProps.v
theories/PassableModel.v
theories/PassableSpec.v
theories/PassableProofs.v
theories/PassableProps.v
theories/RenumberModel.v
theories/RenumberSpec.v
theories/RenumberProofs.v
theories/RenumberProps.v
theories/DotModel.v
theories/DotSpec.v
theories/DotProofs.v
theories/DotProps.v
theories/MercatorModel.v
theories/MercatorSpec.v
theories/MercatorProofs.v
theories/MercatorProps.v
theories/EnuModel.v
theories/EnuSpec.v
theories/EnuProofs.v
theories/EnuProps.v
theories/HeightModel.v
theories/HeightSpec.v
theories/HeightProofs.v
theories/HeightProps.v
theories/ReprModel.v
theories/ReprSpec.v
theories/ReprProofs.v
theories/ReprProps.v
theories/PyCallModel.v
theories/PyCallSpec.v
theories/PyCallProofs.v
theories/PyCallProps.v
theories/PointModel.v
theories/PointSpec.v
theories/PointProofs.v
theories/PointProps.v
theories/PyMatchModel.v
theories/PyMatchSpec.v
theories/PyMatchProofs.v
theories/PyMatchProps.v
theories/ScriptModel.v
theories/ScriptSpec.v
theories/ScriptProofs.v
theories/ScriptProps.v
theories/PyTextModel.v
theories/PyTextSpec.v
theories/PyTextProofs.v
theories/PyTextProps.v
theories/PyDimModel.v
theories/PyDimSpec.v
theories/PyDimProofs.v
theories/PyDimProps.v
theories/PyCostModel.v
theories/PyCostSpec.v
theories/PyCostProofs.v
theories/PyCostProps.v
theories/PyConvModel.v
theories/PyConvSpec.v
theories/PyConvProofs.v
theories/PyConvProps.v
